(** Proofs about the concurrent language server: progress, fairness of the
    lock, and the order of arrival. *)
From Coq Require Import String Ascii NArith Bool List Arith Lia Sorted Wellfounded Relation_Operators.
From Verif Require Import Base Token Lexer Errors Ast Parser Semantic Tdg Api Lsp StrFacts SpecIo IoProofs Conc SpecConc ConcProofs.
Import ListNotations.
Open Scope list_scope.

(** ** What is left to do for a handler *)
Definition coarse (p : pc) : nat :=
  match p with
  | Fresh => 9 | Reading => 8 | WaitWrite _ | WaitRead => 7 | Received => 6
  | LogDomain | LogNotHddl | OpenDir _ => 5 | Scan _ | ReadFile _ _ => 3
  | LogFound _ | LogNotFound => 2 | Done | Dropped => 0
  end.
Definition fine (p : pc) : nat :=
  match p with
  | Scan l => 2 * length l
  | ReadFile _ l => 2 * length l + 1
  | _ => 0
  end.
Definition less (p' p : pc) : Prop := coarse p' < coarse p \/ (coarse p' = coarse p /\ fine p' < fine p).
Definition total (f : pc -> nat) (ts : list (message * pc)) : nat := fold_right (fun t n => f (snd t) + n) 0 ts.
Lemma total_set f i p ts m q : nth_error ts i = Some (m, q) -> total f (set_pc i p ts) + f q = total f ts + f p.
Proof.
  revert i. induction ts as [|[m' q'] ts IH]; intros [|i] E; simpl in *; try discriminate.
  - injection E as -> ->. lia.
  - specialize (IH _ E). lia.
Qed.

Section Proofs.
Context `{Unicode}.
Variable he : hash_env.
Variables fuel limit : nat.
Variable d0 : disk.
Notation steps := (steps he fuel limit).
Notation act := (act he fuel limit).
Notation poll := (poll he fuel limit).
Notation during := (during he fuel limit d0).
Notation looked_at := (looked_at he fuel limit d0).
Notation amounts := (amounts he fuel limit d0).
Notation served := (served he fuel limit d0).
Notation begun_in_order := (begun_in_order he fuel limit d0).
Notation works := (works he fuel limit).
Notation inv := (inv he fuel limit d0).

(** The shapes of a poll. *)
Inductive polled (s : server) (i : nat) (m : message) : pc -> server -> Prop :=
| po_over p h : h <> Running -> polled s i m p (set_state s h)
| po_goto p p' : waiting p = false -> p <> Done -> waiting p' = false -> p' <> Done -> p' <> Fresh -> p' <> Dropped -> less p' p ->
    (p' = Reading -> p = Fresh /\ saves_from_disk m) -> (p = Fresh -> p' = Reading) -> (p = Reading -> False) ->
    polled s i m p (goto s i p')
| po_wait p p' : p = Fresh \/ p = Reading -> waiting p' = true ->
    (p = Fresh -> forall c, p' = WaitWrite c -> text_for (uri_of m) m = Some c) ->
    (p' = WaitRead -> is_request m = true) -> polled s i m p (wait s i p')
| po_finish p r : holds_guard p = true -> r <> None -> polled s i m p (finish s i r)
| po_noop u : m = MChange u [] -> polled s i m Fresh (finish s i None)
| po_insert c : first_waiter s i = true -> guarded s = false ->
    polled s i m (WaitWrite c) (finish (insert (leave s i) (uri_of m) c) i None)
| po_guard c : first_waiter s i = true -> doc_lookup (uri_of m) (docs s) = Some c -> polled s i m WaitRead (goto (leave s i) i Received)
| po_absent : first_waiter s i = true -> doc_lookup (uri_of m) (docs s) = None ->
    polled s i m WaitRead (finish (leave s i) i (Some (InvalidParams (uri_of m)))).

Ltac goes := apply po_goto; try discriminate; auto; try (left; simpl; lia); try (right; simpl; lia).
Lemma conclude_polled s i m p o : holds_guard p = true -> polled s i m p (conclude s i o).
Proof. intros Hp. destruct o; simpl; try (apply po_over; discriminate). apply po_finish; auto. discriminate. Qed.
Lemma poll_cases s i s' : poll s i = Some s' ->
  exists m p, nth_error (tasks s) i = Some (m, p) /\ polled s i m p s'.
Proof.
  unfold Conc.poll. destruct (nth_error (tasks s) i) as [[m p]|] eqn:E; [|discriminate]. intros Hp.
  exists m, p. split; auto. destruct p; try discriminate.
  - destruct (Nat.ltb (active s) limit); [|discriminate].
    destruct m as [u t|u [t|]|u [|t cs]|u]; injection Hp as <-;
      try (apply po_wait; simpl; auto; try discriminate; try congruence; intros _ c Ec; rewrite String.eqb_refl; congruence).
    + goes. intros _. split; simpl; auto.
    + apply po_noop with (u := u). auto.
  - destruct (read_file _ _) as [c|]; injection Hp as <-; [|apply po_over; discriminate].
    apply po_wait; auto; discriminate.
  - destruct (first_waiter s i && negb (guarded s)) eqn:Eg; [|discriminate]. injection Hp as <-.
    apply andb_prop in Eg as [Ef Eg]. apply negb_true_iff in Eg. apply po_insert; auto.
  - destruct (first_waiter s i) eqn:Ef; [|discriminate].
    destruct (doc_lookup (uri_of m) (docs s)) as [c|] eqn:El; injection Hp as <-.
    + eapply po_guard; eauto.
    + apply po_absent; auto.
  - destruct (to_file_path (uri_of m)) as [path|]; [|injection Hp as <-; apply po_over; discriminate].
    destruct (doc_lookup (uri_of m) (docs s)) as [c|]; [|injection Hp as <-; apply po_over; discriminate].
    destruct (classify c) as [[| |]|]; try (injection Hp as <-; goes; fail).
    + destruct (parent path); injection Hp as <-; [goes|apply po_over; discriminate].
    + injection Hp as <-. apply po_over; discriminate.
  - destruct (doc_lookup (uri_of m) (docs s)) as [c|]; injection Hp as <-; [apply conclude_polled; auto|apply po_over; discriminate].
  - destruct (read_dir _ _); injection Hp as <-; [goes|apply po_over; discriminate].
  - destruct entries as [|pa entries].
    { destruct (folder_printable (uri_of m)); injection Hp as <-; [goes|apply po_over; discriminate]. }
    destruct (known_extension pa); injection Hp as <-; goes; right; simpl; lia.
  - destruct (read_file _ _) as [c|]; [|injection Hp as <-; apply po_over; discriminate].
    destruct (classify c) as [[| |]|]; [destruct (folder_printable (uri_of m))| | |]; injection Hp as <-;
      try (apply po_over; discriminate); goes; right; simpl; lia.
  - destruct (doc_lookup (uri_of m) (docs s)) as [c|]; injection Hp as <-; [apply conclude_polled; auto|apply po_over; discriminate].
  - destruct (doc_lookup (uri_of m) (docs s)) as [c|]; injection Hp as <-; [apply conclude_polled; auto|apply po_over; discriminate].
  - injection Hp as <-. apply po_finish; auto. discriminate.
Qed.

(** ** No endless work *)
Definition size (s : server) : nat * nat :=
  (total coarse (tasks s) + match state s with Running => 1 | _ => 0 end, total fine (tasks s)).
Definition smaller (a b : nat * nat) : Prop := fst a < fst b \/ (fst a = fst b /\ snd a < snd b).
Lemma smaller_wf : well_founded smaller.
Proof.
  assert (forall x y, Acc smaller (x, y)) as Ha.
  { intros x. induction x as [x IHx] using lt_wf_ind. intros y. induction y as [y IHy] using lt_wf_ind.
    constructor. intros [a b] [Hs|[Hs1 Hs2]]; simpl in *; auto. subst. auto. }
  intros [x y]. auto.
Qed.
Definition at_most (a b : nat * nat) : Prop := smaller a b \/ a = b.
Lemma smaller_at_most a b c : smaller a b -> at_most b c -> smaller a c.
Proof. unfold smaller, at_most, smaller. destruct a, b, c. simpl. intros [Hs|Hs] [Ht|Ht]; try injection Ht as -> ->; lia. Qed.

Lemma set_smaller s s' i m p p' : nth_error (tasks s) i = Some (m, p) -> tasks s' = set_pc i p' (tasks s) ->
  state s' = state s -> less p' p -> smaller (size s') (size s).
Proof.
  intros E Et Es Hl. unfold size, smaller. rewrite Et, Es. simpl.
  pose proof (total_set coarse _ p' _ _ _ E). pose proof (total_set fine _ p' _ _ _ E).
  unfold less in Hl. destruct (state s); lia.
Qed.
Lemma poll_smaller s i s' : act s (LPoll i) = Some s' -> smaller (size s') (size s).
Proof.
  unfold Conc.act. destruct (state s) eqn:Est; try discriminate. intros Hp.
  apply poll_cases in Hp as (m & p & E & Hp).
  destruct Hp as [p h Hh|p p' ? ? ? ? ? ? Hl|p p' Hp Hw ? ?|p r Hg ?|u Hu|c Hf Hg|c Hf Hd|Hf Hd].
  - unfold size, smaller. simpl. rewrite Est. destruct h; [congruence| |]; lia.
  - eapply set_smaller; eauto; reflexivity.
  - eapply set_smaller; eauto; try reflexivity. left. destruct Hp as [-> | ->], p'; simpl in *; try discriminate; lia.
  - eapply set_smaller; eauto; try reflexivity. left. destruct p; simpl in *; try discriminate; lia.
  - eapply set_smaller; eauto; try reflexivity. left. simpl. lia.
  - eapply set_smaller; eauto; try reflexivity. left. simpl. lia.
  - eapply set_smaller; eauto; try reflexivity. left. simpl. lia.
  - eapply set_smaller; eauto; try reflexivity. left. simpl. lia.
Qed.
Lemma background_at_most s l s' : background l -> act s l = Some s' -> at_most (size s') (size s).
Proof.
  unfold Conc.act. destruct (state s) eqn:Est; try discriminate. destruct l as [m|i|i|d]; simpl; try tauto; intros _.
  - unfold cancel. destruct (nth_error (tasks s) i) as [[m p]|] eqn:E; [|discriminate].
    destruct (is_request m && negb (is_over p)) eqn:Eo; [|discriminate]. intros Hc. injection Hc as <-.
    left. eapply set_smaller; eauto; try reflexivity. left.
    apply andb_prop in Eo as [_ Eo]. destruct p; simpl in *; try discriminate; lia.
  - intros Hd. injection Hd as <-. right. unfold size. simpl. rewrite Est. auto.
Qed.
Lemma works_smaller s s' : works s s' -> smaller (size s') (size s).
Proof.
  intros (ls & i & Hb & Hs). revert s Hs. induction Hb as [|l ls Hl Hls IH]; intros s Hs; simpl in Hs.
  - destruct (act s (LPoll i)) as [s1|] eqn:Ea; [|discriminate]. injection Hs as <-. eapply poll_smaller; eauto.
  - destruct (act s l) as [s1|] eqn:Ea; [|discriminate]. eapply smaller_at_most; [eauto|]. eapply background_at_most; eauto.
Qed.
Lemma no_endless : well_founded (fun s' s => works s s').
Proof.
  eapply wf_incl; [|apply (wf_inverse_image _ _ _ size smaller_wf)]. intros a b. apply works_smaller.
Qed.

(** ** Progress *)
Lemma holder_moves s i m p : nth_error (tasks s) i = Some (m, p) -> holds_guard p = true -> exists s', poll s i = Some s'.
Proof.
  intros E Hg. unfold Conc.poll. rewrite E. destruct p; try discriminate; eauto;
    repeat match goal with |- exists _, match ?x with _ => _ end = _ => destruct x; eauto end.
Qed.
Lemma some_task (f : pc -> bool) s : existsb (fun t => f (snd t)) (tasks s) = true ->
  exists i m p, nth_error (tasks s) i = Some (m, p) /\ f p = true.
Proof.
  intros Hx. apply existsb_exists in Hx as ([m p] & Hi & Hf). apply In_nth_error in Hi as (i & Hi). exists i, m, p. auto.
Qed.
Lemma no_task (f : pc -> bool) s m p : existsb (fun t => f (snd t)) (tasks s) = false -> In (m, p) (tasks s) -> f p = false.
Proof.
  intros Hx Hi. destruct (f p) eqn:Ef; auto. rewrite <- Hx. symmetry. apply existsb_exists. exists (m, p). auto.
Qed.
Lemma some_progress ls s i : 0 < limit -> inv ls s -> unfinished s i -> exists j s', poll s j = Some s'.
Proof.
  intros Hlim Hi (m & p & E & Ho).
  destruct (existsb (fun t => holds_guard (snd t)) (tasks s)) eqn:Eg.
  { apply some_task in Eg as (j & m' & p' & E' & Hg). exists j. eapply holder_moves; eauto. }
  destruct (existsb (fun t => match snd t with Reading => true | _ => false end) (tasks s)) eqn:Er.
  { apply (some_task (fun p => match p with Reading => true | _ => false end)) in Er as (j & m' & p' & E' & Hg).
    exists j. unfold Conc.poll. rewrite E'. destruct p'; try discriminate. destruct (read_file _ _); eauto. }
  destruct (queue s) as [|j q] eqn:Eq.
  - assert (active s = 0) as Ha.
    { unfold active. destruct (filter _ (tasks s)) as [|[m' p'] l] eqn:Ef; auto. exfalso.
      assert (In (m', p') (filter (fun t => is_active (snd t)) (tasks s))) as Hin by (rewrite Ef; left; auto).
      apply filter_In in Hin as [Hin Hac]. simpl in Hac.
      pose proof (no_task holds_guard _ _ _ Eg Hin) as H1.
      pose proof (no_task (fun p => match p with Reading => true | _ => false end) _ _ _ Er Hin) as H2. cbv beta in H2.
      apply In_nth_error in Hin as (k & Hk).
      assert (In k (queue s)) as Hq; [|rewrite Eq in Hq; destruct Hq].
      apply (inv_queue _ _ _ _ _ _ Hi). exists m', p'. split; auto. destruct p'; simpl in *; try discriminate; auto; congruence. }
    exists i. unfold Conc.poll. rewrite E, Ha. apply Nat.ltb_lt in Hlim. rewrite Hlim.
    apply nth_error_In in E as Hin. pose proof (no_task holds_guard _ _ _ Eg Hin) as H1.
    pose proof (no_task (fun p => match p with Reading => true | _ => false end) _ _ _ Er Hin) as H2. cbv beta in H2.
    destruct p; simpl in Ho, H1; try discriminate.
    + destruct m as [u t|u [t|]|u [|t cs]|u]; eauto.
    + exfalso. assert (In i (queue s)) as Hq; [|rewrite Eq in Hq; destruct Hq]. apply (inv_queue _ _ _ _ _ _ Hi). eauto.
    + exfalso. assert (In i (queue s)) as Hq; [|rewrite Eq in Hq; destruct Hq]. apply (inv_queue _ _ _ _ _ _ Hi). eauto.
  - assert (In j (queue s)) as Hj by (rewrite Eq; left; auto).
    apply (inv_queue _ _ _ _ _ _ Hi) in Hj as (m' & p' & E' & Hw). exists j. unfold Conc.poll. rewrite E'.
    unfold first_waiter, guarded. rewrite Eq, Nat.eqb_refl, Eg. destruct p'; simpl in Hw; try discriminate; simpl; eauto.
    destruct (doc_lookup _ _); eauto.
Qed.

(** ** First come, first served *)
(** How one step changes a task and the queue. *)
Lemma task_step s l s' j m p : act s l = Some s' -> nth_error (tasks s) j = Some (m, p) ->
  nth_error (tasks s') j = Some (m, p)
  \/ (l = LPoll j /\ polled s j m p s')
  \/ (l = LCancel j /\ s' = goto (leave s j) j Dropped /\ is_request m = true /\ is_over p = false).
Proof.
  unfold Conc.act. destruct (state s); try discriminate. intros Ha E. destruct l as [m0|k|k|d].
  - injection Ha as <-. left. simpl. rewrite nth_error_app1; auto. apply nth_error_Some. congruence.
  - apply poll_cases in Ha as (m' & p' & E' & Hp). destruct (Nat.eq_dec j k) as [->|Hn].
    + right. left. rewrite E in E'. injection E' as <- <-. auto.
    + left. destruct Hp; simpl; rewrite ?nth_set_other; auto.
  - unfold cancel in Ha. destruct (nth_error (tasks s) k) as [[m' p']|] eqn:E'; [|discriminate].
    destruct (is_request m' && negb (is_over p')) eqn:Eo; [|discriminate]. injection Ha as <-.
    destruct (Nat.eq_dec j k) as [->|Hn].
    + right. right. rewrite E in E'. injection E' as <- <-. apply andb_prop in Eo as [Hr Ho].
      apply negb_true_iff in Ho. auto.
    + left. simpl. rewrite nth_set_other; auto.
  - injection Ha as <-. auto.
Qed.
Lemma queue_step s l s' : act s l = Some s' ->
  queue s' = queue s
  \/ (exists k m p, l = LPoll k /\ nth_error (tasks s) k = Some (m, p) /\ (p = Fresh \/ p = Reading) /\ queue s' = queue s ++ [k])
  \/ (exists k, queue s' = filter (fun j => negb (Nat.eqb j k)) (queue s) /\ (l = LPoll k /\ first_waiter s k = true \/ l = LCancel k)).
Proof.
  unfold Conc.act. destruct (state s); try discriminate. intros Ha. destruct l as [m0|k|k|d].
  - injection Ha as <-. auto.
  - apply poll_cases in Ha as (m & p & E & Hp). destruct Hp; simpl; auto.
    + right. left. eauto 8.
    + right. right. eauto.
    + right. right. eauto.
    + right. right. eauto.
  - unfold cancel in Ha. destruct (nth_error (tasks s) k) as [[m' p']|] eqn:E'; [|discriminate].
    destruct (is_request m' && negb (is_over p')) eqn:Eo; [|discriminate]. injection Ha as <-. right. right. exists k. auto.
  - injection Ha as <-. auto.
Qed.

Definition ahead (i j : nat) (q : list nat) : Prop := exists a b c, q = a ++ i :: b ++ j :: c.
Lemma ahead_app i j q l : ahead i j q -> ahead i j (q ++ l).
Proof. intros (a & b & c & ->). exists a, b, (c ++ l). rewrite <- !app_assoc. simpl. rewrite <- app_assoc. auto. Qed.
Lemma ahead_last i j q : In i q -> ahead i j (q ++ [j]).
Proof. intros Hi. apply in_split in Hi as (a & b & ->). exists a, b, []. rewrite <- app_assoc. auto. Qed.
Lemma ahead_filter i j k q : k <> i -> k <> j -> ahead i j q -> ahead i j (filter (fun x => negb (Nat.eqb x k)) q).
Proof.
  intros Hi Hj (a & b & c & ->). exists (filter (fun x => negb (Nat.eqb x k)) a), (filter (fun x => negb (Nat.eqb x k)) b), (filter (fun x => negb (Nat.eqb x k)) c).
  rewrite filter_app. simpl. rewrite filter_app. simpl.
  destruct (Nat.eqb_spec i k); [congruence|]. destruct (Nat.eqb_spec j k); [congruence|]. auto.
Qed.
Lemma ahead_first i j s : NoDup (queue s) -> ahead i j (queue s) -> first_waiter s j = true -> False.
Proof.
  intros Hn (a & b & c & Hq) Hf. unfold first_waiter in Hf. rewrite Hq in Hf, Hn. destruct a as [|x a]; simpl in *;
    apply Nat.eqb_eq in Hf; subst; inversion Hn as [|? ? Hx Hr]; apply Hx; rewrite ?in_app_iff; simpl; rewrite ?in_app_iff; simpl; auto.
Qed.

Definition past (s : server) (i : nat) : Prop :=
  exists m p, nth_error (tasks s) i = Some (m, p) /\ (holds_guard p = true \/ is_over p = true).
Lemma past_step s l s' i : act s l = Some s' -> past s i -> past s' i.
Proof.
  intros Ha (m & p & E & Hp). destruct (task_step _ _ _ _ _ _ Ha E) as [E'|[[-> Hpo]|(-> & -> & _)]].
  - exists m, p. auto.
  - destruct Hpo as [p h Hh|p p' N1 N2 N3 N4 N5 N6 Hl N7 N8 N9|p p' Hf Hw ? ?|p r Hg ?|u Hu|c Hf Hg|c Hf Hd|Hf Hd]; simpl in Hp;
      try (destruct Hp; discriminate); unfold past; simpl; try rewrite (nth_set_same _ _ _ _ _ E); eauto.
    + exists m, p'. split; auto. left. destruct Hp as [Hp|Hp].
      * destruct p'; simpl in *; try congruence. destruct (N7 eq_refl) as [-> _]. discriminate.
      * exfalso. destruct p; try discriminate; [congruence|]. unfold less in Hl. simpl in Hl. lia.
    + destruct Hf as [-> | ->]; destruct Hp; discriminate.
  - exists m, Dropped. simpl. rewrite (nth_set_same _ _ _ _ _ E). auto.
Qed.

Lemma waits_eq s i : waits s i <-> exists m p, nth_error (tasks s) i = Some (m, p) /\ waiting p = true.
Proof.
  split; intros (m & p & E & Hp); exists m, p; split; auto.
  - destruct Hp as [->|[c ->]]; auto.
  - destruct p; try discriminate; eauto.
Qed.
Lemma waits_step s l s' i : act s l = Some s' -> waits s i -> waits s' i \/ past s' i.
Proof.
  intros Ha Hw. apply waits_eq in Hw as (m & p & E & Hp). rewrite waits_eq.
  destruct (task_step _ _ _ _ _ _ Ha E) as [E'|[[-> Hpo]|(-> & -> & _)]].
  - eauto.
  - destruct Hpo as [p h Hh|p p' N1 N2 N3 N4 N5 N6 Hl N7 N8 N9|p p' Hf Hw ? ?|p r Hg ?|u Hu|c Hf Hg|c Hf Hd|Hf Hd];
      simpl in Hp; try discriminate; try congruence; unfold past; simpl; try rewrite (nth_set_same _ _ _ _ _ E); eauto 6.
  - right. exists m, Dropped. simpl. rewrite (nth_set_same _ _ _ _ _ E). auto.
Qed.
(** [j] has not overtaken the waiting [i]. *)
Definition behind (s : server) (i j : nat) : Prop :=
  past s i \/ (waits s i /\ (has_not_asked s j \/ ahead i j (queue s) \/ cancelled s j
                         \/ exists u, nth_error (tasks s) j = Some (MChange u [], Done))).
Lemma over_step s l s' j m p : act s l = Some s' -> nth_error (tasks s) j = Some (m, p) -> is_over p = true ->
  nth_error (tasks s') j = Some (m, p).
Proof.
  intros Ha E Ho. destruct (task_step _ _ _ _ _ _ Ha E) as [E'|[[-> _]|(-> & _ & _ & Hx)]]; auto; [|congruence].
  unfold Conc.act, Conc.poll in Ha. rewrite E in Ha. destruct (state s), p; discriminate.
Qed.
Lemma behind_step ls ls' s l s' i j : inv ls s -> inv ls' s' -> act s l = Some s' -> behind s i j -> behind s' i j.
Proof.
  intros Hi Hi' Ha [Hp|[Hw Hb]]; [left; eapply past_step; eauto|].
  destruct (waits_step _ _ _ _ Ha Hw) as [Hw'|Hp']; [|left; auto]. right. split; auto.
  assert (In i (queue s)) as Hin by (apply (inv_queue _ _ _ _ _ _ Hi); apply waits_eq; auto).
  destruct Hb as [Hb|[Hb|[[m Hb]|[u Hb]]]].
  - destruct (nth_error (tasks s) j) as [[m p]|] eqn:E.
    + specialize (Hb _ _ E) as Hf. destruct (task_step _ _ _ _ _ _ Ha E) as [E'|[[-> Hpo]|(-> & -> & _)]].
      * left. intros m' p' E2. rewrite E' in E2. injection E2 as <- <-. auto.
      * clear Ha. destruct Hpo as [p h Hh|p p' N1 N2 N3 N4 N5 N6 Hl N7 N8 N9|p p' Hf' Hw2 ? ?|p r Hg ?|u Hu|c Hf' Hg|c Hf' Hd|Hf' Hd];
          try (destruct Hf; discriminate).
        -- left. intros m' p' E2. simpl in E2. rewrite E in E2. injection E2 as <- <-. auto.
        -- left. intros m' q E2. simpl in E2. rewrite (nth_set_same _ _ _ _ _ E) in E2. injection E2 as <- <-.
           destruct Hf as [-> | ->]; [auto|tauto].
        -- right. left. simpl. apply ahead_last; auto.
        -- destruct Hf as [-> | ->]; discriminate.
        -- right. right. right. exists u. simpl. rewrite (nth_set_same _ _ _ _ _ E). subst. auto.
      * right. right. left. exists m. simpl. rewrite (nth_set_same _ _ _ _ _ E). auto.
    + left. intros m p E'. unfold Conc.act in Ha. destruct (state s); try discriminate. destruct l as [m0|k|k|d].
      * injection Ha as <-. simpl in E'. apply nth_error_None in E. rewrite nth_error_app2 in E' by auto.
        destruct (j - length (tasks s)) as [|[|]]; simpl in E'; try discriminate. injection E' as <- <-. auto.
      * exfalso. apply poll_cases in Ha as (m' & p' & E2 & Hpo). assert (j <> k) by congruence.
        destruct Hpo; simpl in E'; rewrite ?nth_set_other in E' by auto; congruence.
      * exfalso. unfold cancel in Ha. destruct (nth_error (tasks s) k) as [[m' p']|] eqn:E2; [|discriminate].
        destruct (is_request m' && negb (is_over p')); [|discriminate]. injection Ha as <-. simpl in E'.
        rewrite nth_set_other in E' by congruence. congruence.
      * injection Ha as <-. simpl in E'. congruence.
  - destruct (queue_step _ _ _ Ha) as [->|[(k & m & p & _ & _ & _ & ->)|(k & Hq & Hk)]]; auto using ahead_app.
    destruct (Nat.eq_dec k i) as [->|Hki].
    { exfalso. assert (In i (queue s')) as Hin' by (apply (inv_queue _ _ _ _ _ _ Hi'); apply waits_eq; auto).
      rewrite Hq in Hin'. apply filter_In in Hin' as [_ Hin']. rewrite Nat.eqb_refl in Hin'. discriminate. }
    destruct (Nat.eq_dec k j) as [->|Hkj]; [|right; left; rewrite Hq; apply ahead_filter; auto].
    destruct Hk as [[-> Hk]| ->].
    + exfalso. eapply ahead_first; eauto. apply (inv_queue_once _ _ _ _ _ _ Hi).
    + assert (In j (queue s)) as Hj by (destruct Hb as (a & b & c & ->); rewrite in_app_iff; simpl; rewrite in_app_iff; simpl; auto).
      apply (inv_queue _ _ _ _ _ _ Hi) in Hj as (m & p & E & Hwp).
      destruct (task_step _ _ _ _ _ _ Ha E) as [E'|[[Hx _]|(_ & -> & _)]]; [|discriminate|].
      * exfalso. (* a cancelled task is dropped *)
        unfold Conc.act, cancel in Ha. destruct (state s); try discriminate. rewrite E in Ha.
        destruct (is_request m && negb (is_over p)); [|discriminate]. injection Ha as <-. simpl in E'.
        rewrite (nth_set_same _ _ _ _ _ E) in E'. injection E' as E'. subst p. discriminate.
      * right. right. left. exists m. simpl. rewrite (nth_set_same _ _ _ _ _ E). auto.
  - right. right. left. exists m. eapply over_step; eauto.
  - right. right. right. exists u. eapply over_step; eauto.
Qed.
Lemma behind_steps ls s i j ls2 s2 : steps (start d0) ls = Some s -> behind s i j -> steps s ls2 = Some s2 -> behind s2 i j.
Proof.
  intros Hs Hb. revert s2. induction ls2 as [|l ls2 IH] using rev_ind; intros s2 H2.
  - injection H2 as <-. auto.
  - apply steps_snoc in H2 as (s1 & H1 & Ha).
    assert (steps (start d0) (ls ++ ls2) = Some s1) as Hs1 by (rewrite steps_app, Hs; auto).
    assert (steps (start d0) ((ls ++ ls2) ++ [l]) = Some s2) as Hs2 by (rewrite steps_app, Hs1; simpl; rewrite Ha; auto).
    apply inv_steps in Hs1, Hs2. exact (behind_step _ _ _ _ _ _ _ Hs1 Hs2 Ha (IH _ H1)).
Qed.
Lemma not_overtaken ls s i j ls2 s2 : steps (start d0) ls = Some s -> waits s i -> has_not_asked s j ->
  steps s ls2 = Some s2 -> waits s2 i -> ~ got_lock s2 j.
Proof.
  intros Hs Hw Hn H2 Hw2 (m & p & E & Hp & Hm).
  assert (behind s2 i j) as Hb by (eapply behind_steps; eauto; right; auto).
  apply waits_eq in Hw2 as (m' & p' & E' & Hp').
  destruct Hb as [(m2 & p2 & E2 & Hp2)|[_ Hb]].
  - rewrite E' in E2. injection E2 as <- <-. destruct p', Hp2; discriminate.
  - destruct Hb as [Hb|[Hb|[[m2 Hb]|[u Hb]]]].
    + apply Hb in E as [-> | ->]; destruct Hp; discriminate.
    + assert (In j (queue s2)) as Hj by (destruct Hb as (a & b & c & ->); rewrite in_app_iff; simpl; rewrite in_app_iff; simpl; auto).
      assert (steps (start d0) (ls ++ ls2) = Some s2) as Hs2 by (rewrite steps_app, Hs; auto).
      apply inv_steps in Hs2. apply (inv_queue _ _ _ _ _ _ Hs2) in Hj as (m2 & p2 & E2 & Hw3).
      rewrite E in E2. injection E2 as <- <-. destruct p, Hp; discriminate.
    + rewrite E in Hb. injection Hb as -> ->. destruct Hp; discriminate.
    + rewrite E in Hb. injection Hb as -> ->. eapply Hm; eauto.
Qed.
End Proofs.
