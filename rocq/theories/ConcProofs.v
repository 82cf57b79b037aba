(** Proofs about the concurrent language server. *)
From Coq Require Import String Ascii NArith Bool List Arith Lia.
From Verif Require Import Base Token Lexer Errors Ast Parser Semantic Tdg Api Lsp StrFacts SpecIo Conc SpecConc.
Import ListNotations.
Open Scope list_scope.

(** ** Lists of tasks *)
Lemma nth_set_pc i p ts j : nth_error (set_pc i p ts) j =
  if Nat.eqb j i then option_map (fun t => (fst t, p)) (nth_error ts j) else nth_error ts j.
Proof.
  revert i j. induction ts as [|[m q] ts IH]; intros [|i] [|j]; simpl; auto.
  destruct (Nat.eqb j i); auto.
Qed.
Lemma nth_set_same i p ts m q : nth_error ts i = Some (m, q) -> nth_error (set_pc i p ts) i = Some (m, p).
Proof. intros E. rewrite nth_set_pc, Nat.eqb_refl, E. auto. Qed.
Lemma nth_set_other i p ts j : j <> i -> nth_error (set_pc i p ts) j = nth_error ts j.
Proof. intros E. rewrite nth_set_pc. apply Nat.eqb_neq in E. rewrite E. auto. Qed.
Lemma map_fst_set_pc i p ts : map fst (set_pc i p ts) = map fst ts.
Proof. revert i. induction ts as [|[m q] ts IH]; intros [|i]; simpl; auto. rewrite IH. auto. Qed.
Lemma nth_set_inv i p ts j m q : nth_error (set_pc i p ts) j = Some (m, q) ->
  (j = i /\ q = p /\ exists q0, nth_error ts i = Some (m, q0)) \/ (j <> i /\ nth_error ts j = Some (m, q)).
Proof.
  rewrite nth_set_pc. destruct (Nat.eqb_spec j i) as [->|Hn]; auto.
  destruct (nth_error ts i) as [[m0 q0]|]; simpl; intros E; [|discriminate]. injection E as -> ->. left. eauto.
Qed.
Lemma arrivals_app a b : arrivals (a ++ b) = arrivals a ++ arrivals b.
Proof. induction a as [|[m|i|i|d] a IH]; simpl; auto. rewrite IH. auto. Qed.

Lemma find_domain_app `{Unicode} a b : find_domain a = Ok None -> find_domain (a ++ b) = find_domain b.
Proof.
  induction a as [|[[|] c] a IH]; simpl; auto. destruct (classify c) as [[| |]|]; auto; discriminate.
Qed.

Definition waiting (p : pc) : bool := match p with WaitWrite _ | WaitRead => true | _ => false end.

Section Proofs.
Context `{Unicode}.
Variable he : hash_env.
Variables fuel limit : nat.
Variable d0 : disk.
Notation steps := (steps he fuel limit).
Notation act := (act he fuel limit).
Notation poll := (poll he fuel limit).
Notation during := (during he fuel limit d0).
Notation read_during := (read_during he fuel limit d0).
Notation listed_during := (listed_during he fuel limit d0).
Notation looked_at := (looked_at he fuel limit d0).
Notation amounts := (amounts he fuel limit d0).
Notation served := (served he fuel limit d0).
Notation begun_in_order := (begun_in_order he fuel limit d0).
Notation works := (works he fuel limit).

Lemma steps_app s a b : steps s (a ++ b) = match steps s a with Some s' => steps s' b | None => None end.
Proof. revert s. induction a as [|l a IH]; intros s; simpl; auto. destruct (act s l); auto. Qed.
Lemma steps_snoc s a l s2 : steps s (a ++ [l]) = Some s2 ->
  exists s1, steps s a = Some s1 /\ act s1 l = Some s2.
Proof.
  rewrite steps_app. destruct (steps s a) as [s1|]; [|discriminate]. simpl.
  intros E. exists s1. split; auto. destruct (act s1 l); congruence.
Qed.

(** ** Later moments see what earlier moments saw *)
Lemma during_later ls ls' i s : during ls i s -> during (ls ++ ls') i s.
Proof. intros (a & b & -> & Hs & Hi & Hn). exists a, (b ++ ls'). rewrite app_assoc. auto. Qed.
Lemma read_later ls ls' i p c : read_during ls i p c -> read_during (ls ++ ls') i p c.
Proof. intros (s & Hs & Hr). exists s. split; auto. apply during_later; auto. Qed.
Lemma listed_later ls ls' i p c : listed_during ls i p c -> listed_during (ls ++ ls') i p c.
Proof. intros (s & Hs & Hr). exists s. split; auto. apply during_later; auto. Qed.
Definition entry ls i (p : string) (e : dir_entry) : Prop :=
  fst e = known_extension p /\ (fst e = true -> read_during ls i p (snd e)).
Lemma entries_later ls ls' i ps es : Forall2 (entry ls i) ps es -> Forall2 (entry (ls ++ ls') i) ps es.
Proof.
  induction 1 as [|p e ps es [He Hr] Hs IH]; constructor; auto. split; auto. intros Ht. apply read_later; auto.
Qed.
Lemma looked_later ls ls' i uri dir : looked_at ls i uri dir -> looked_at (ls ++ ls') i uri dir.
Proof.
  intros (path & folder & seen & unseen & H1 & H2 & H3 & H4 & H5).
  exists path, folder, seen, unseen. repeat (split; [solve [auto|apply listed_later; auto|apply entries_later; auto]|]). auto.
Qed.
Lemma amounts_later ls ls' i ds m e : amounts ls i ds m e -> amounts (ls ++ ls') i ds m e.
Proof.
  intros Ha. inversion Ha; subst; constructor; auto.
  - apply read_later; auto.
  - intros c Hc Hk. apply looked_later; eauto.
Qed.
Lemma served_later ls ls' ds out ds' : served ls ds out ds' -> served (ls ++ ls') ds out ds'.
Proof.
  induction 1 as [|ds i m e ds1 r out ds2 Hn Ha Hh Hs IH]; [constructor|].
  econstructor; eauto using amounts_later. rewrite arrivals_app, nth_error_app1; auto.
  apply nth_error_Some. congruence.
Qed.
Lemma served_snoc ls ds out ds1 i m e ds2 r : served ls ds out ds1 -> nth_error (arrivals ls) i = Some m ->
  amounts ls i ds1 m e -> handle he fuel ds1 e = Ok (ds2, r) -> served ls ds (out ++ [(i, r)]) ds2.
Proof.
  induction 1 as [|ds j m' e' ds1 r' out ds1' Hn Ha Hh Hs IH]; intros Hm Hame Hhe; simpl.
  - econstructor; eauto. constructor.
  - econstructor; eauto.
Qed.

(** ** What is known about a handler at each await *)
(** The folder has been listed, the files before [rest] have been looked at and
    gave [dir]. *)
Definition scanned ls i uri rest dir : Prop :=
  exists path folder seen, to_file_path uri = Some path /\ parent path = Some folder
    /\ listed_during ls i folder (seen ++ rest) /\ Forall2 (entry ls i) seen dir /\ find_domain dir = Ok None.
Definition pc_ok ls (ds : documents) i m p : Prop :=
  match p with
  | WaitWrite c => is_request m = false /\ forall ds', exists e, amounts ls i ds' m e
      /\ handle he fuel ds' e = Ok (sync ds' (uri_of m) c, None)
  | WaitRead => is_request m = true
  | Reading => m = MSave (uri_of m) None
  | Received => is_request m = true /\ exists c, doc_lookup (uri_of m) ds = Some c
  | LogDomain => is_request m = true /\ exists c, doc_lookup (uri_of m) ds = Some c /\ classify c = Some VDomain
  | LogNotHddl => is_request m = true /\ exists c, doc_lookup (uri_of m) ds = Some c /\ classify c = Some VMaybeNotHDDL
  | OpenDir folder => is_request m = true /\ exists c path, doc_lookup (uri_of m) ds = Some c /\ classify c = Some VProblem
      /\ to_file_path (uri_of m) = Some path /\ parent path = Some folder
  | Scan rest => is_request m = true /\ exists c dir, doc_lookup (uri_of m) ds = Some c /\ classify c = Some VProblem
      /\ scanned ls i (uri_of m) rest dir
  | ReadFile p rest => is_request m = true /\ exists c dir, doc_lookup (uri_of m) ds = Some c /\ classify c = Some VProblem
      /\ scanned ls i (uri_of m) (p :: rest) dir /\ known_extension p = true
  | LogFound dom => is_request m = true /\ exists c dir, doc_lookup (uri_of m) ds = Some c /\ classify c = Some VProblem
      /\ looked_at ls i (uri_of m) dir /\ find_domain dir = Ok (Some dom)
  | LogNotFound => is_request m = true /\ exists c dir, doc_lookup (uri_of m) ds = Some c /\ classify c = Some VProblem
      /\ looked_at ls i (uri_of m) dir /\ find_domain dir = Ok None
  | Fresh | Done | Dropped => True
  end.
Lemma scanned_later ls ls' i uri rest dir : scanned ls i uri rest dir -> scanned (ls ++ ls') i uri rest dir.
Proof.
  intros (path & folder & seen & H1 & H2 & H3 & H4 & H5). exists path, folder, seen.
  repeat (split; [solve [auto|apply listed_later; auto|apply entries_later; auto]|]). auto.
Qed.
Lemma pc_ok_later ls ls' ds i m p : pc_ok ls ds i m p -> pc_ok (ls ++ ls') ds i m p.
Proof.
  destruct p; simpl; auto.
  - intros [Hr Hw]. split; auto. intros ds'. destruct (Hw ds') as (e & Ha & Hh). exists e. split; auto. apply amounts_later; auto.
  - intros (Hr & c & dir & Hd & Hc & Hs). split; auto. exists c, dir. auto using scanned_later.
  - intros (Hr & c & dir & Hd & Hc & Hs & Hk). split; auto. exists c, dir. auto using scanned_later.
  - intros (Hr & c & dir & Hd & Hc & Hs & Hk). split; auto. exists c, dir. auto using looked_later.
  - intros (Hr & c & dir & Hd & Hc & Hs & Hk). split; auto. exists c, dir. auto using looked_later.
Qed.
Lemma pc_ok_docs ls ds ds' i m p : holds_guard p = false -> pc_ok ls ds i m p -> pc_ok ls ds' i m p.
Proof. destruct p; simpl; auto; discriminate. Qed.

Record inv (ls : list label) (s : server) : Prop := mkInv {
  inv_msgs : map fst (tasks s) = arrivals ls;
  inv_sent : forall i, In i (map fst (sent s)) <-> exists m, nth_error (tasks s) i = Some (m, Done);
  inv_once : NoDup (map fst (sent s));
  inv_served : served ls [] (sent s) (docs s);
  inv_queue : forall i, In i (queue s) <-> exists m p, nth_error (tasks s) i = Some (m, p) /\ waiting p = true;
  inv_queue_once : NoDup (queue s);
  inv_pc : forall i m p, nth_error (tasks s) i = Some (m, p) -> pc_ok ls (docs s) i m p
}.

Lemma inv_later ls l s : inv ls s -> arrivals [l] = [] -> inv (ls ++ [l]) s.
Proof.
  intros [H1 H2 H3 H4 H5 H6 H7] Hl. constructor; auto.
  - rewrite arrivals_app, Hl, app_nil_r. auto.
  - apply served_later; auto.
  - intros i m p Hp. apply pc_ok_later; auto.
Qed.

Lemma msg_at ls s i m p : inv ls s -> nth_error (tasks s) i = Some (m, p) -> nth_error (arrivals ls) i = Some m.
Proof. intros Hi E. rewrite <- (inv_msgs _ _ Hi). rewrite nth_error_map, E. auto. Qed.

(** Changing the program counter of one handler. *)
Lemma inv_goto ls s i m p p' : inv ls s -> nth_error (tasks s) i = Some (m, p) ->
  p <> Done -> waiting p = false -> p' <> Done -> waiting p' = false ->
  pc_ok ls (docs s) i m p' -> inv ls (goto s i p').
Proof.
  intros [H1 H2 H3 H4 H5 H6 H7] E Hd Hw Hd' Hw' Hok. constructor; simpl; auto.
  - rewrite map_fst_set_pc. auto.
  - intros j. rewrite H2. split; intros [m' Hm].
    + exists m'. rewrite nth_set_other; auto. intros ->. congruence.
    + apply nth_set_inv in Hm as [(-> & Hq & _)|[Hn Hm]]; [congruence|]. eauto.
  - intros j. rewrite H5. split; intros (m' & q & Hm & Hq).
    + exists m', q. rewrite nth_set_other; auto. intros ->. congruence.
    + apply nth_set_inv in Hm as [(-> & -> & _)|[Hn Hm]]; [congruence|]. eauto.
  - intros j m' q Hm. apply nth_set_inv in Hm as [(-> & -> & q0 & Hm)|[Hn Hm]]; auto.
    assert (m' = m) as -> by congruence. auto.
Qed.
Lemma inv_wait ls s i m p p' : inv ls s -> nth_error (tasks s) i = Some (m, p) ->
  p <> Done -> waiting p = false -> waiting p' = true ->
  pc_ok ls (docs s) i m p' -> inv ls (wait s i p').
Proof.
  intros [H1 H2 H3 H4 H5 H6 H7] E Hd Hw Hw' Hok. constructor; simpl; auto.
  - rewrite map_fst_set_pc. auto.
  - intros j. rewrite H2. split; intros [m' Hm].
    + exists m'. rewrite nth_set_other; auto. intros ->. congruence.
    + apply nth_set_inv in Hm as [(-> & Hq & _)|[Hn Hm]]; [subst; discriminate|]. eauto.
  - intros j. rewrite in_app_iff, H5. split.
    + intros [(m' & q & Hm & Hq)|[<-|[]]].
      * exists m', q. rewrite nth_set_other; auto. intros ->. congruence.
      * exists m, p'. rewrite (nth_set_same _ _ _ _ _ E). auto.
    + intros (m' & q & Hm & Hq). apply nth_set_inv in Hm as [(-> & -> & _)|[Hn Hm]]; simpl; eauto.
  - rewrite <- (rev_involutive (queue s ++ [i])), rev_unit.
    apply NoDup_rev. constructor; [|apply NoDup_rev; auto].
    rewrite <- in_rev. intros Hi. apply H5 in Hi as (m' & q & Hm & Hq). congruence.
  - intros j m' q Hm. apply nth_set_inv in Hm as [(-> & -> & q0 & Hm)|[Hn Hm]]; auto.
    assert (m' = m) as -> by congruence. auto.
Qed.
Lemma in_leave s i j : In j (queue (leave s i)) <-> In j (queue s) /\ j <> i.
Proof. simpl. rewrite filter_In, negb_true_iff, Nat.eqb_neq. tauto. Qed.
(** A handler leaves the queue and goes elsewhere. *)
Lemma inv_leave_goto ls s i m p p' : inv ls s -> nth_error (tasks s) i = Some (m, p) ->
  p <> Done -> p' <> Done -> waiting p' = false ->
  pc_ok ls (docs s) i m p' -> inv ls (goto (leave s i) i p').
Proof.
  intros [H1 H2 H3 H4 H5 H6 H7] E Hd Hd' Hw' Hok. constructor; simpl; auto.
  - rewrite map_fst_set_pc. auto.
  - intros j. rewrite H2. split; intros [m' Hm].
    + exists m'. rewrite nth_set_other; auto. intros ->. congruence.
    + apply nth_set_inv in Hm as [(-> & Hq & _)|[Hn Hm]]; [congruence|]. eauto.
  - intros j. change (filter (fun j => negb (Nat.eqb j i)) (queue s)) with (queue (leave s i)). rewrite in_leave, H5. split.
    + intros [(m' & q & Hm & Hq) Hn]. exists m', q. rewrite nth_set_other; auto.
    + intros (m' & q & Hm & Hq). apply nth_set_inv in Hm as [(-> & -> & _)|[Hn Hm]]; [congruence|]. eauto 6.
  - apply NoDup_filter; auto.
  - intros j m' q Hm. apply nth_set_inv in Hm as [(-> & -> & q0 & Hm)|[Hn Hm]]; auto.
    assert (m' = m) as -> by congruence. auto.
Qed.
(** A handler finishes; the documents change only if nobody holds a guard. *)
Lemma inv_finish ls s i m p e ds' r : inv ls s -> nth_error (tasks s) i = Some (m, p) ->
  p <> Done -> amounts ls i (docs s) m e -> handle he fuel (docs s) e = Ok (ds', r) ->
  (ds' = docs s \/ guarded s = false) ->
  inv ls (mkServer ds' (set_pc i Done (tasks s)) (filter (fun j => negb (Nat.eqb j i)) (queue s))
            (sent s ++ [(i, r)]) (state s) (disk_now s)).
Proof.
  intros Hi E Hd Ha Hh Hg. pose proof (msg_at _ _ _ _ _ Hi E) as Hmsg. destruct Hi as [H1 H2 H3 H4 H5 H6 H7].
  constructor; simpl; auto.
  - rewrite map_fst_set_pc. auto.
  - intros j. rewrite map_app, in_app_iff, H2. simpl. split.
    + intros [[m' Hm]|[<-|[]]].
      * exists m'. rewrite nth_set_other; auto. intros ->. congruence.
      * exists m. rewrite (nth_set_same _ _ _ _ _ E). auto.
    + intros [m' Hm]. apply nth_set_inv in Hm as [(-> & Hq & _)|[Hn Hm]]; eauto.
  - rewrite map_app. simpl. rewrite <- (rev_involutive (_ ++ [i])), rev_unit.
    apply NoDup_rev. constructor; [|apply NoDup_rev; auto].
    rewrite <- in_rev. intros Hi. apply H2 in Hi as (m' & Hm). congruence.
  - eapply served_snoc; eauto.
  - intros j. change (filter (fun j => negb (Nat.eqb j i)) (queue s)) with (queue (leave s i)). rewrite in_leave, H5. split.
    + intros [(m' & q & Hm & Hq) Hn]. exists m', q. rewrite nth_set_other; auto.
    + intros (m' & q & Hm & Hq). apply nth_set_inv in Hm as [(-> & -> & _)|[Hn Hm]]; [discriminate|]. eauto 6.
  - apply NoDup_filter; auto.
  - intros j m' q Hm. apply nth_set_inv in Hm as [(-> & -> & q0 & Hm)|[Hn Hm]]; [exact I|].
    destruct Hg as [->|Hg]; auto. apply pc_ok_docs with (ds := docs s); auto.
    destruct (holds_guard q) eqn:Eq; auto. unfold guarded in Hg.
    assert (existsb (fun t : message * pc => holds_guard (snd t)) (tasks s) = true) as Hx; [|congruence].
    apply existsb_exists. exists (m', q). split; auto. eapply nth_error_In; eauto.
Qed.
Lemma filter_absent (i : nat) (l : list nat) : ~ In i l -> filter (fun j => negb (Nat.eqb j i)) l = l.
Proof.
  induction l as [|a l IH]; simpl; auto. intros Hn. destruct (Nat.eqb_spec a i) as [->|]; simpl; [tauto|].
  f_equal. auto.
Qed.
Lemma inv_finish' ls s i m p e r : inv ls s -> nth_error (tasks s) i = Some (m, p) ->
  p <> Done -> waiting p = false -> amounts ls i (docs s) m e -> handle he fuel (docs s) e = Ok (docs s, r) ->
  inv ls (finish s i r).
Proof.
  intros Hi E Hd Hw Ha Hh. unfold finish. rewrite <- (filter_absent i (queue s)) at 1.
  - eapply inv_finish; eauto.
  - intros Hq. apply (inv_queue _ _ Hi) in Hq as (m' & q & Hm & Hq). congruence.
Qed.
Lemma inv_health ls s h : inv ls s -> inv ls (set_state s h).
Proof. intros [H1 H2 H3 H4 H5 H6 H7]. constructor; auto. Qed.
Lemma inv_conclude ls s i m p e o : inv ls s -> nth_error (tasks s) i = Some (m, p) ->
  p <> Done -> waiting p = false -> amounts ls i (docs s) m e ->
  handle he fuel (docs s) e = obind (obind o (fun l => Ok (Report l))) (fun r => Ok (docs s, Some r)) ->
  inv ls (conclude s i o).
Proof.
  intros Hi E Hd Hw Ha Hh. destruct o as [l|x|q|]; simpl in *; try (apply inv_health; auto).
  eapply inv_finish'; eauto.
Qed.

Lemma now ls l s i m p : steps (start d0) ls = Some s -> inv ls s -> nth_error (tasks s) i = Some (m, p) ->
  p <> Done -> during (ls ++ [l]) i s.
Proof.
  intros Hs Hi E Hd. exists ls, [l]. split; auto. split; auto. split.
  - rewrite <- (inv_msgs _ _ Hi), map_length. apply nth_error_Some. congruence.
  - intros Hn. apply (inv_sent _ _ Hi) in Hn as (m' & Hm). congruence.
Qed.

Lemma is_req m : is_request m = true -> m = MDiagnose (uri_of m).
Proof. destruct m; simpl; auto; discriminate. Qed.

Lemma inv_poll ls s i s' : steps (start d0) ls = Some s -> inv ls s -> poll s i = Some s' -> inv (ls ++ [LPoll i]) s'.
Proof.
  intros Hs Hi0 Hp. pose proof (inv_later _ (LPoll i) _ Hi0 eq_refl) as Hi.
  unfold Conc.poll in Hp. destruct (nth_error (tasks s) i) as [[m p]|] eqn:E; [|discriminate].
  pose proof (inv_pc _ _ Hi _ _ _ E) as Hok. pose proof (fun H => now ls (LPoll i) s i m p Hs Hi0 E H) as Hnow.
  destruct p; cbn [pc_ok] in Hok; try discriminate.
  - (* Fresh *)
    destruct (Nat.ltb (active s) limit); [|discriminate]. specialize (Hnow ltac:(discriminate)).
    destruct m as [u t|u [t|]|u [|t cs]|u]; injection Hp as <-.
    + eapply inv_wait; eauto; try discriminate. split; auto. intros ds. eexists. split; [constructor|reflexivity].
    + eapply inv_wait; eauto; try discriminate. split; auto. intros ds. eexists. split; [constructor|reflexivity].
    + eapply inv_goto; eauto; try discriminate. reflexivity.
    + eapply inv_finish'; eauto; try discriminate; [constructor|reflexivity].
    + eapply inv_wait; eauto; try discriminate. split; auto. intros ds. eexists. split; [constructor|reflexivity].
    + eapply inv_wait; eauto; try discriminate. reflexivity.
  - (* Reading *)
    specialize (Hnow ltac:(discriminate)).
    destruct (read_file (disk_now s) (url_path (uri_of m))) as [c|] eqn:Er; injection Hp as <-; [|apply inv_health; auto].
    eapply inv_wait; eauto; try discriminate. rewrite Hok. split; auto. intros ds. eexists. split; [constructor|reflexivity].
    exists s. auto.
  - (* WaitWrite *)
    destruct (first_waiter s i && negb (guarded s)) eqn:Eg; [|discriminate]. injection Hp as <-.
    apply andb_prop in Eg as [_ Eg]. apply negb_true_iff in Eg. destruct Hok as [_ Hok].
    destruct (Hok (docs s)) as (e & Ha & Hh). unfold finish, insert, leave. simpl.
    eapply inv_finish; eauto. discriminate.
  - (* WaitRead *)
    destruct (first_waiter s i); [|discriminate].
    destruct (doc_lookup (uri_of m) (docs s)) as [c|] eqn:El; injection Hp as <-.
    + eapply inv_leave_goto; eauto; try discriminate. split; eauto.
    + apply is_req in Hok. unfold finish, leave. simpl.
      eapply inv_finish with (e := Diagnose (uri_of m) []); eauto; try discriminate.
      * rewrite Hok at 1. constructor. congruence.
      * simpl. unfold diagnose. rewrite El. auto.
  - (* Received *)
    destruct Hok as (Hr & c & Hc). rewrite Hc in Hp.
    destruct (to_file_path (uri_of m)) as [path|] eqn:Ef; [|injection Hp as <-; apply inv_health; auto].
    destruct (classify c) as [[| |]|] eqn:Ec.
    + injection Hp as <-. eapply inv_goto; eauto; try discriminate. split; eauto.
    + destruct (parent path) as [folder|] eqn:Epa; injection Hp as <-; [|apply inv_health; auto].
      eapply inv_goto; eauto; try discriminate. split; auto. exists c, path. auto.
    + injection Hp as <-. eapply inv_goto; eauto; try discriminate. split; eauto.
    + injection Hp as <-. apply inv_health; auto.
  - (* LogDomain *)
    destruct Hok as (Hr & c & Hc & Hk). rewrite Hc in Hp. injection Hp as <-.
    eapply inv_conclude with (e := Diagnose (uri_of m) []); eauto; try discriminate.
    + rewrite (is_req _ Hr) at 1. constructor. intros c'. rewrite Hc. congruence.
    + simpl. unfold diagnose. rewrite Hc, Hk. auto.
  - (* OpenDir *)
    specialize (Hnow ltac:(discriminate)).
    destruct Hok as (Hr & c & path & Hc & Hk & Hf & Hpa).
    destruct (read_dir (disk_now s) folder) as [entries|] eqn:Ed; injection Hp as <-; [|apply inv_health; auto].
    eapply inv_goto; eauto; try discriminate. split; auto. exists c, []. split; auto. split; auto.
    exists path, folder, []. split; auto. split; auto. split; [exists s; auto|]. split; [constructor|auto].
  - (* Scan *)
    destruct Hok as (Hr & c & dir & Hc & Hk & path & folder & seen & Hf & Hpa & Hl & He & Hfd).
    destruct entries as [|pa entries].
    + destruct (folder_printable (uri_of m)); injection Hp as <-; [|apply inv_health; auto].
      eapply inv_goto; eauto; try discriminate. split; auto. exists c, dir. split; auto. split; auto. split; auto.
      exists path, folder, seen, []. auto 6.
    + destruct (known_extension pa) eqn:Ek; injection Hp as <-; eapply inv_goto; eauto; try discriminate; split; auto.
      * exists c, dir. split; auto. split; auto. split; auto. exists path, folder, seen. auto 6.
      * exists c, (dir ++ [(false, ""%string)]). split; auto. split; auto. exists path, folder, (seen ++ [pa]).
        rewrite <- app_assoc. split; auto. split; auto. split; auto. split.
        -- apply Forall2_app; auto. constructor; [|constructor]. split; simpl; auto. discriminate.
        -- rewrite find_domain_app; auto.
  - (* ReadFile *)
    specialize (Hnow ltac:(discriminate)).
    destruct Hok as (Hr & c & dir & Hc & Hk & (pa & folder & seen & Hf & Hpa & Hl & He & Hfd) & Hx).
    destruct (read_file (disk_now s) path) as [cc|] eqn:Erf; [|injection Hp as <-; apply inv_health; auto].
    assert (Forall2 (entry (ls ++ [LPoll i]) i) (seen ++ [path]) (dir ++ [(true, cc)])) as He'.
    { apply Forall2_app; auto. constructor; [|constructor]. split; simpl; auto. intros _. exists s. auto. }
    assert (listed_during (ls ++ [LPoll i]) i folder ((seen ++ [path]) ++ entries)) as Hl' by (rewrite <- app_assoc; auto).
    destruct (classify cc) as [[| |]|] eqn:Ecc; [destruct (folder_printable (uri_of m))| | |];
      injection Hp as <-; try (apply inv_health; auto; fail);
      eapply inv_goto; eauto; try discriminate; split; auto; exists c, (dir ++ [(true, cc)]); split; auto; split; auto.
    + split.
      * exists pa, folder, (seen ++ [path]), entries. repeat (split; auto). right. exists dir, cc. auto.
      * rewrite find_domain_app; auto. simpl. rewrite Ecc. auto.
    + exists pa, folder, (seen ++ [path]). repeat (split; auto). rewrite find_domain_app; auto. simpl. rewrite Ecc. auto.
    + exists pa, folder, (seen ++ [path]). repeat (split; auto). rewrite find_domain_app; auto. simpl. rewrite Ecc. auto.
  - (* LogFound *)
    destruct Hok as (Hr & c & dir & Hc & Hk & Hla & Hfd). rewrite Hc in Hp. injection Hp as <-.
    eapply inv_conclude with (e := Diagnose (uri_of m) dir); eauto; try discriminate.
    + rewrite (is_req _ Hr) at 1. constructor. auto.
    + simpl. unfold diagnose. rewrite Hc, Hk, Hfd. auto.
  - (* LogNotFound *)
    destruct Hok as (Hr & c & dir & Hc & Hk & Hla & Hfd). rewrite Hc in Hp. injection Hp as <-.
    eapply inv_conclude with (e := Diagnose (uri_of m) dir); eauto; try discriminate.
    + rewrite (is_req _ Hr) at 1. constructor. auto.
    + simpl. unfold diagnose. rewrite Hc, Hk, Hfd. auto.
  - (* LogNotHddl *)
    destruct Hok as (Hr & c & Hc & Hk). injection Hp as <-.
    eapply inv_finish' with (e := Diagnose (uri_of m) []); eauto; try discriminate.
    + rewrite (is_req _ Hr) at 1. constructor. intros c'. rewrite Hc. congruence.
    + simpl. unfold diagnose. rewrite Hc, Hk. auto.
Qed.

Lemma inv_cancel ls s i s' : inv ls s -> cancel s i = Some s' -> inv (ls ++ [LCancel i]) s'.
Proof.
  intros Hi Hc. apply (inv_later _ (LCancel i)) in Hi; auto. unfold cancel in Hc.
  destruct (nth_error (tasks s) i) as [[m p]|] eqn:E; [|discriminate].
  destruct (is_request m && negb (is_over p)) eqn:Eo; [|discriminate]. injection Hc as <-.
  apply andb_prop in Eo as [_ Eo]. eapply inv_leave_goto; eauto; try discriminate. destruct p; discriminate.
  exact I.
Qed.

Lemma inv_act ls s l s' : steps (start d0) ls = Some s -> inv ls s -> act s l = Some s' -> inv (ls ++ [l]) s'.
Proof.
  intros Hs Hi Ha. unfold Conc.act in Ha. destruct (state s) eqn:Est; try discriminate.
  destruct l as [m|i|i|d].
  - injection Ha as <-. destruct Hi as [H1 H2 H3 H4 H5 H6 H7].
    assert (forall j m' p', nth_error (tasks s ++ [(m, Fresh)]) j = Some (m', p') ->
      nth_error (tasks s) j = Some (m', p') \/ p' = Fresh) as Hnew.
    { intros j m' p' Hj. destruct (Nat.lt_ge_cases j (length (tasks s))) as [Hlt|Hge].
      - rewrite nth_error_app1 in Hj; auto.
      - rewrite nth_error_app2 in Hj; auto. destruct (j - length (tasks s)) as [|[|]]; simpl in Hj; try discriminate.
        injection Hj as <- <-. auto. }
    assert (forall j t, nth_error (tasks s) j = Some t -> nth_error (tasks s ++ [(m, Fresh)]) j = Some t) as Hold.
    { intros j t Hj. rewrite nth_error_app1; auto. apply nth_error_Some. congruence. }
    constructor; simpl; auto.
    + rewrite map_app, arrivals_app, H1. auto.
    + intros j. rewrite H2. split; intros [m' Hm]; eauto. apply Hnew in Hm as [Hm|Hm]; [eauto|discriminate].
    + apply served_later; auto.
    + intros j. rewrite H5. split; intros (m' & p' & Hm & Hp); eauto. apply Hnew in Hm as [Hm| ->]; [eauto|discriminate].
    + intros j m' p' Hm. apply Hnew in Hm as [Hm| ->]; [|exact I]. apply pc_ok_later; auto.
  - eapply inv_poll; eauto.
  - eapply inv_cancel; eauto.
  - injection Ha as <-. apply (inv_later _ (LDisk d)) in Hi; auto. destruct Hi. constructor; auto.
Qed.

Lemma inv_start : inv [] (start d0).
Proof.
  constructor; simpl; auto; try constructor; try tauto.
  - intros [m Hm]. destruct i; discriminate.
  - intros (m & p & Hm & _). destruct i; discriminate.
  - intros [|i] m p Hm; discriminate.
Qed.
Lemma inv_steps ls s : steps (start d0) ls = Some s -> inv ls s.
Proof.
  revert s. induction ls as [|l ls IH] using rev_ind; intros s Hs.
  - injection Hs as <-. apply inv_start.
  - apply steps_snoc in Hs as (s1 & Hs & Ha). eapply inv_act; eauto.
Qed.
End Proofs.
