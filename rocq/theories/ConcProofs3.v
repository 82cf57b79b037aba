(** Proofs about the concurrent language server: messages take effect in the
    order of their arrival. *)
From Coq Require Import String Ascii NArith Bool List Arith Lia Sorted.
From Verif Require Import Base Token Lexer Errors Ast Parser Semantic Tdg Api Lsp StrFacts SpecIo IoProofs Conc SpecConc ConcProofs ConcProofs2.
Import ListNotations.
Open Scope list_scope.

Lemma last_text_app uri a b : last_text uri (a ++ b) = match last_text uri b with Some t => Some t | None => last_text uri a end.
Proof.
  induction a as [|m a IH]; simpl; [destruct (last_text uri b); auto|].
  rewrite IH. destruct (last_text uri b); auto.
Qed.
Lemma last_text_silent uri l : (forall m, In m l -> text_for uri m = None) -> last_text uri l = None.
Proof.
  induction l as [|m l IH]; simpl; auto. intros Hl. rewrite IH by (intros; apply Hl; auto). apply Hl. auto.
Qed.
(** Messages between two positions that bring no text do not matter. *)
Lemma last_text_skip uri (A : list message) g i : g <= i ->
  (forall j m, g <= j -> j < i -> nth_error A j = Some m -> text_for uri m = None) ->
  last_text uri (firstn i A) = last_text uri (firstn g A).
Proof.
  intros Hle Hs. assert (firstn i A = firstn g A ++ firstn (i - g) (skipn g A)) as ->.
  { clear Hs. revert A i Hle. induction g as [|g IH]; intros A i Hle; simpl; [rewrite Nat.sub_0_r; auto|].
    destruct A as [|a A]; [rewrite !firstn_nil; auto|]. destruct i as [|i]; [lia|]. simpl. f_equal. apply IH. lia. }
  rewrite last_text_app, last_text_silent; auto. intros m Hm. apply In_nth_error in Hm as (k & Hk).
  assert (k < i - g) as Hlt.
  { assert (k < length (firstn (i - g) (skipn g A))) as Hl by (apply nth_error_Some; congruence).
    rewrite firstn_length in Hl. lia. }
  apply (Hs (g + k) m); try lia. rewrite <- Hk. clear Hs Hk.
  assert (forall (l : list message) n k, k < n -> nth_error (firstn n l) k = nth_error l k) as Hf.
  { intros l. induction l as [|a l IH]; intros n k' Hk; [rewrite firstn_nil; auto|]. destruct n as [|n]; [lia|].
    destruct k' as [|k']; simpl; auto. apply IH. lia. }
  rewrite Hf by lia. clear. revert A. induction g as [|g IH]; intros A; simpl; auto. destruct A; simpl; auto. destruct k; auto.
Qed.
Lemma last_text_next uri (A : list message) i m : nth_error A i = Some m ->
  last_text uri (firstn (S i) A) = match text_for uri m with Some t => Some t | None => last_text uri (firstn i A) end.
Proof.
  intros E. assert (firstn (S i) A = firstn i A ++ [m]) as ->.
  { revert i E. induction A as [|a A IH]; intros [|i] E; simpl in *; try discriminate; [injection E as ->; auto|].
    f_equal. apply IH; auto. }
  rewrite last_text_app. simpl. auto.
Qed.
Lemma text_for_other uri m : uri <> uri_of m -> text_for uri m = None.
Proof.
  intros Hn. destruct m as [u t|u [t|]|u [|t cs]|u]; simpl in *; auto; destruct (String.eqb_spec u uri); congruence.
Qed.

Section Proofs.
Context `{Unicode}.
Variable he : hash_env.
Variables fuel limit : nat.
Variable d0 : disk.
Notation steps := (steps he fuel limit).
Notation act := (act he fuel limit).
Notation poll := (poll he fuel limit).
Notation during := (during he fuel limit d0).
Notation looked_at := (looked_at he fuel limit d0).
Notation amounts := (amounts he fuel limit d0).
Notation served := (served he fuel limit d0).
Notation begun_in_order := (begun_in_order he fuel limit d0).
Notation inv := (inv he fuel limit d0).
Notation polled := (polled).

(** What a handler that finishes has done. *)
Lemma finish_amounts ls s i s' m p : inv ls s -> nth_error (tasks s) i = Some (m, p) ->
  poll s i = Some s' ->
  sent s' = sent s \/ exists e r, sent s' = sent s ++ [(i, r)] /\ amounts (ls ++ [LPoll i]) i (docs s) m e
    /\ handle he fuel (docs s) e = Ok (docs s', r).
Proof.
  intros Hi E Hp. pose proof (inv_later _ _ _ _ _ (LPoll i) _ Hi eq_refl) as Hi'.
  pose proof (inv_pc _ _ _ _ _ _ Hi' _ _ _ E) as Hok.
  assert (forall o s' e, conclude s i o = s' -> amounts (ls ++ [LPoll i]) i (docs s) m e ->
    handle he fuel (docs s) e = obind (obind o (fun l => Ok (Report l))) (fun r => Ok (docs s, Some r)) ->
    sent s' = sent s \/ exists e r, sent s' = sent s ++ [(i, r)] /\ amounts (ls ++ [LPoll i]) i (docs s) m e
      /\ handle he fuel (docs s) e = Ok (docs s', r)) as Hcon.
  { intros o s2 e <- Ha Hh. destruct o; simpl in *; auto. right. eauto. }
  unfold Conc.poll in Hp. rewrite E in Hp.
  destruct p; cbn [pc_ok] in Hok; try discriminate.
  - destruct (Nat.ltb (active s) limit); [|discriminate].
    destruct m as [u t|u [t|]|u [|t cs]|u]; injection Hp as <-; auto.
    right. eexists _, _. split; [reflexivity|]. split; [constructor|reflexivity].
  - destruct (read_file _ _); injection Hp as <-; auto.
  - destruct (first_waiter s i && negb (guarded s)); [|discriminate]. injection Hp as <-.
    destruct Hok as [_ Hok]. destruct (Hok (docs s)) as (e & Ha & Hh). right. exists e, None. auto.
  - destruct (first_waiter s i); [|discriminate].
    destruct (doc_lookup (uri_of m) (docs s)) as [c|] eqn:El; injection Hp as <-; auto.
    apply is_req in Hok. right. exists (Diagnose (uri_of m) []). eexists. split; [reflexivity|]. split.
    + rewrite Hok at 1. constructor. congruence.
    + simpl. unfold diagnose. rewrite El. auto.
  - left. destruct (to_file_path (uri_of m)) as [path|]; [|injection Hp as <-; auto].
    destruct (doc_lookup (uri_of m) (docs s)) as [c|]; [|injection Hp as <-; auto].
    destruct (classify c) as [[| |]|]; try (injection Hp as <-; auto; fail).
    destruct (parent path); injection Hp as <-; auto.
  - destruct Hok as (Hr & c & Hc & Hk). rewrite Hc in Hp. injection Hp as Hp.
    eapply Hcon with (e := Diagnose (uri_of m) []); eauto.
    + rewrite (is_req _ Hr) at 1. constructor. intros c'. rewrite Hc. congruence.
    + simpl. unfold diagnose. rewrite Hc, Hk. auto.
  - left. destruct (read_dir _ _); injection Hp as <-; auto.
  - left. destruct entries as [|pa entries]; [destruct (folder_printable (uri_of m)); injection Hp as <-; auto|].
    destruct (known_extension pa); injection Hp as <-; auto.
  - left. destruct (read_file _ _) as [c|]; [|injection Hp as <-; auto].
    destruct (classify c) as [[| |]|]; [destruct (folder_printable (uri_of m))| | |]; injection Hp as <-; auto.
  - destruct Hok as (Hr & c & dir & Hc & Hk & Hla & Hfd). rewrite Hc in Hp. injection Hp as Hp.
    eapply Hcon with (e := Diagnose (uri_of m) dir); eauto.
    + rewrite (is_req _ Hr) at 1. constructor. auto.
    + simpl. unfold diagnose. rewrite Hc, Hk, Hfd. auto.
  - destruct Hok as (Hr & c & dir & Hc & Hk & Hla & Hfd). rewrite Hc in Hp. injection Hp as Hp.
    eapply Hcon with (e := Diagnose (uri_of m) dir); eauto.
    + rewrite (is_req _ Hr) at 1. constructor. auto.
    + simpl. unfold diagnose. rewrite Hc, Hk, Hfd. auto.
  - destruct Hok as (Hr & c & Hc & Hk). injection Hp as <-. right. exists (Diagnose (uri_of m) []). eexists. split; [reflexivity|]. split.
    + rewrite (is_req _ Hr) at 1. constructor. intros c'. rewrite Hc. congruence.
    + simpl. unfold diagnose. rewrite Hc, Hk. auto.
Qed.

(** The answer to request [i], given the text the client sent last before it. *)
Definition answered ls i uri (before : list message) (r : option reply) : Prop :=
  match last_text uri before with
  | None => r = Some (InvalidParams uri)
  | Some text => exists dir reply, r = Some reply
      /\ (classify text = Some VProblem -> looked_at ls i uri dir)
      /\ diagnose he fuel [(uri, text)] uri dir = Ok reply
  end.
Lemma answered_later ls ls' i uri A r : answered ls i uri A r -> answered (ls ++ ls') i uri A r.
Proof.
  unfold answered. destruct (last_text uri A); auto. intros (dir & reply & Hr & Hl & Hd).
  exists dir, reply. split; auto. split; auto. intros Hc. apply looked_later; auto.
Qed.
Lemma handled_answered ls i ds uri A e ds' r : doc_lookup uri ds = last_text uri A ->
  amounts ls i ds (MDiagnose uri) e -> handle he fuel ds e = Ok (ds', r) -> answered ls i uri A r.
Proof.
  intros Hl Ha Hh. inversion Ha as [| | | |u dir Hc]; subst. cbn [handle] in Hh. unfold answered. rewrite <- Hl.
  unfold diagnose in *. destruct (doc_lookup uri ds) as [text|] eqn:Ed; simpl in *; [|congruence].
  exists dir. rewrite String.eqb_refl.
  match type of Hh with obind ?x _ = _ => destruct x as [rep| | |] eqn:Ex; simpl in Hh; try discriminate end.
  exists rep. split; [congruence|]. split; [eauto|]. auto.
Qed.

(** ** The frontier *)
Definition settled (p : pc) : bool :=
  match p with Fresh | Reading | WaitWrite _ | WaitRead => false | _ => true end.
Record ordered ls (s : server) (g : nat) : Prop := mkOrdered {
  or_le : g <= length (arrivals ls);
  or_before : forall i m p, nth_error (tasks s) i = Some (m, p) -> i < g -> settled p = true;
  or_after : forall i m p, nth_error (tasks s) i = Some (m, p) -> g <= i ->
    p = Fresh \/ waiting p = true \/ (p = Dropped /\ is_request m = true) \/ (p = Done /\ exists u, m = MChange u []);
  or_fresh : forall i j m m' p, nth_error (tasks s) i = Some (m, Fresh) -> nth_error (tasks s) j = Some (m', p) -> i < j ->
    p = Fresh \/ p = Dropped;
  or_queue : StronglySorted lt (queue s);
  or_docs : forall uri, doc_lookup uri (docs s) = last_text uri (firstn g (arrivals ls));
  or_text : forall i m c, nth_error (tasks s) i = Some (m, WaitWrite c) -> text_for (uri_of m) m = Some c;
  or_hold : forall i m p, nth_error (tasks s) i = Some (m, p) -> holds_guard p = true ->
    doc_lookup (uri_of m) (docs s) = last_text (uri_of m) (firstn i (arrivals ls));
  or_sent : forall i uri r, In (i, r) (sent s) -> nth_error (arrivals ls) i = Some (MDiagnose uri) ->
    answered ls i uri (firstn i (arrivals ls)) r
}.

Lemma ordered_later ls l s g : ordered ls s g -> arrivals [l] = [] -> ordered (ls ++ [l]) s g.
Proof.
  intros [H1 H2 H3 H4 H5 H6 H7 H8 H9] Hl.
  assert (arrivals (ls ++ [l]) = arrivals ls) as E by (rewrite arrivals_app, Hl, app_nil_r; auto).
  constructor; rewrite ?E; auto. intros i uri r Hi Hn. apply answered_later. auto.
Qed.
Lemma sorted_snoc q (i : nat) : StronglySorted lt q -> (forall j, In j q -> j < i) -> StronglySorted lt (q ++ [i]).
Proof.
  induction 1 as [|a q Hs IH Hf]; simpl; intros Hl; [repeat constructor|].
  constructor; auto. apply Forall_app. auto.
Qed.
Lemma sorted_filter f q : StronglySorted lt q -> StronglySorted lt (filter f q).
Proof.
  induction 1 as [|a q Hs IH Hf]; simpl; [constructor|]. destruct (f a); auto. constructor; auto.
  apply Forall_forall. intros x Hx. apply filter_In in Hx as [Hx _]. rewrite Forall_forall in Hf. auto.
Qed.
Lemma sorted_first s i j : StronglySorted lt (queue s) -> first_waiter s i = true -> In j (queue s) -> i <= j.
Proof.
  unfold first_waiter. destruct (queue s) as [|a q]; simpl; [discriminate|]. intros Hs Ha Hj. apply Nat.eqb_eq in Ha as ->.
  inversion Hs as [|? ? _ Hf]; subst. rewrite Forall_forall in Hf. destruct Hj as [<-|Hj]; auto. apply Nat.lt_le_incl. auto.
Qed.

(** Nothing between the frontier and the first waiter brings a text. *)
Lemma frontier ls s g i m p : inv ls s -> ordered ls s g -> nth_error (tasks s) i = Some (m, p) ->
  waiting p = true -> first_waiter s i = true ->
  g <= i /\ (forall j m' p', nth_error (tasks s) j = Some (m', p') -> j < i -> settled p' = true)
  /\ (forall uri, last_text uri (firstn i (arrivals ls)) = last_text uri (firstn g (arrivals ls))).
Proof.
  intros Hi Ho E Hw Hf.
  assert (g <= i) as Hg.
  { destruct (Nat.lt_ge_cases i g) as [Hlt|]; auto. apply (or_before _ _ _ Ho _ _ _ E) in Hlt. destruct p; discriminate. }
  assert (forall j m' p', nth_error (tasks s) j = Some (m', p') -> g <= j -> j < i ->
    (p' = Dropped /\ is_request m' = true) \/ (p' = Done /\ exists u, m' = MChange u [])) as Hb.
  { intros j m' p' E' Hgj Hji. destruct (or_after _ _ _ Ho _ _ _ E' Hgj) as [->|[Hw'|Hr]]; auto; exfalso.
    - destruct (or_fresh _ _ _ Ho _ _ _ _ _ E' E Hji); subst p; discriminate.
    - assert (In j (queue s)) as Hq by (apply (inv_queue _ _ _ _ _ _ Hi); eauto).
      pose proof (sorted_first _ _ _ (or_queue _ _ _ Ho) Hf Hq). lia. }
  split; auto. split.
  - intros j m' p' E' Hji. destruct (Nat.lt_ge_cases j g) as [Hlt|Hge].
    + eapply or_before; eauto.
    + destruct (Hb _ _ _ E' Hge Hji) as [[-> _]|[-> _]]; auto.
  - intros uri. apply last_text_skip; auto. intros j m' Hgj Hji Hn.
    rewrite <- (inv_msgs _ _ _ _ _ _ Hi), nth_error_map in Hn.
    destruct (nth_error (tasks s) j) as [[m2 p2]|] eqn:E2; [|discriminate]. injection Hn as <-.
    destruct (Hb _ _ _ E2 Hgj Hji) as [[_ Hr]|[_ [u ->]]]; auto. apply is_req in Hr. simpl. rewrite Hr. auto.
Qed.

(** The handler that finished last. *)
Lemma sent_new (l : list (nat * option reply)) i r j r' : In (j, r') (l ++ [(i, r)]) -> In (j, r') l \/ (j = i /\ r' = r).
Proof. rewrite in_app_iff. intros [Hi|[Hi|[]]]; auto. injection Hi as -> ->. auto. Qed.
Lemma docs_same ls s g i m p : ordered ls s g -> nth_error (tasks s) i = Some (m, p) -> holds_guard p = true ->
  nth_error (arrivals ls) i = Some m -> doc_lookup (uri_of m) (docs s) = last_text (uri_of m) (firstn i (arrivals ls)).
Proof. intros Ho E Hg _. eapply or_hold; eauto. Qed.

Lemma ordered_step ls l s s' g : inv ls s -> inv (ls ++ [l]) s' -> ordered ls s g ->
  Forall (fun m => ~ saves_from_disk m) (arrivals (ls ++ [l])) ->
  (forall i, l = LPoll i -> is_fresh s i -> forall j, j < i -> ~ is_fresh s j) ->
  act s l = Some s' -> exists g', ordered (ls ++ [l]) s' g'.
Proof.
  intros Hi Hi' Ho Hns Hfr Ha0. pose proof Ha0 as Ha. unfold Conc.act in Ha. destruct (state s) eqn:Est; try discriminate.
  destruct l as [m|i|i|d].
  - (* a message arrives *)
    injection Ha as <-. exists g. pose proof (inv_msgs _ _ _ _ _ _ Hi) as Hmsg.
    assert (arrivals (ls ++ [LArrive m]) = arrivals ls ++ [m]) as EA by (rewrite arrivals_app; auto).
    assert (length (tasks s) = length (arrivals ls)) as Hlen by (rewrite <- Hmsg, map_length; auto).
    assert (forall j t, nth_error (tasks s ++ [(m, Fresh)]) j = Some t ->
      (nth_error (tasks s) j = Some t /\ j < length (tasks s)) \/ (t = (m, Fresh) /\ j = length (tasks s))) as Hnew.
    { intros j t Hj. destruct (Nat.lt_ge_cases j (length (tasks s))) as [Hlt|Hge].
      - rewrite nth_error_app1 in Hj; auto.
      - rewrite nth_error_app2 in Hj; auto. destruct (j - length (tasks s)) as [|[|]] eqn:Ej; simpl in Hj; try discriminate.
        injection Hj as <-. right. split; auto. lia. }
    assert (forall j, j <= length (arrivals ls) -> firstn j (arrivals ls ++ [m]) = firstn j (arrivals ls)) as Hfn.
    { intros j Hj. rewrite firstn_app. replace (j - length (arrivals ls)) with 0 by lia. simpl. rewrite app_nil_r. auto. }
    destruct Ho as [H1 H2 H3 H4 H5 H6 H7 H8 H9]. constructor; rewrite ?EA; simpl.
    + rewrite app_length. simpl. lia.
    + intros j m' p' Hj Hjg. apply Hnew in Hj as [[Hj _]|[_ ->]]; eauto. lia.
    + intros j m' p' Hj Hjg. apply Hnew in Hj as [[Hj _]|[Hj _]]; eauto. injection Hj as -> ->. auto.
    + intros a b m1 m2 p2 Hj Hk Hab. apply Hnew in Hj as [[Hj _]|[_ ->]].
      * apply Hnew in Hk as [[Hk _]|[Hk _]]; eauto. injection Hk as -> ->. auto.
      * apply Hnew in Hk as [[_ Hk]|[_ ->]]; lia.
    + auto.
    + intros uri. rewrite Hfn by auto. auto.
    + intros j m' c Hj. apply Hnew in Hj as [[Hj _]|[Hj _]]; eauto. discriminate.
    + intros j m' p' Hj Hg. apply Hnew in Hj as [[Hj Hlt]|[Hj _]]; [|injection Hj as -> ->; discriminate].
      rewrite Hfn by lia. eauto.
    + intros j uri r Hj Hn. assert (j < length (arrivals ls)) as Hlt.
      { assert (In j (map fst (sent s))) as Hin by (apply in_map_iff; exists (j, r); auto).
        apply (inv_sent _ _ _ _ _ _ Hi) in Hin as [m' Hm]. rewrite <- Hlen. apply nth_error_Some. congruence. }
      rewrite nth_error_app1 in Hn by auto. rewrite Hfn by lia. apply answered_later. auto.
  - (* a handler is polled *)
    pose proof (ordered_later _ (LPoll i) _ _ Ho eq_refl) as Ho2.
    pose proof (inv_later _ _ _ _ _ (LPoll i) _ Hi eq_refl) as Hi2.
    set (ls' := ls ++ [LPoll i]) in *.
    destruct (poll_cases _ _ _ _ _ _ Ha) as (m & p & E & Hp).
    pose proof (msg_at _ _ _ _ _ _ _ _ _ Hi2 E) as Hmsg.
    assert (~ saves_from_disk m) as Hm by (rewrite Forall_forall in Hns; apply Hns; eapply nth_error_In; eauto).
    assert (forall r uri, sent s' = sent s ++ [(i, r)] -> m = MDiagnose uri ->
       doc_lookup uri (docs s) = last_text uri (firstn i (arrivals ls')) -> answered ls' i uri (firstn i (arrivals ls')) r) as Hans.
    { intros r uri Hse -> Hdl. destruct (finish_amounts _ _ _ _ _ _ Hi E Ha) as [Hx|(e & r' & Hx & Hame & Hh)].
      - rewrite Hx in Hse. exfalso. apply (f_equal (@length _)) in Hse. rewrite app_length in Hse. simpl in Hse. lia.
      - rewrite Hx in Hse. apply app_inj_tail in Hse as [_ Hse]. injection Hse as <-. eapply handled_answered; eauto. }
    destruct Hp as [p h Hh|p p' N1 N2 N3 N4 N5 N6 Hl N7 N8 N9|p p' Hf Hw Htx Hrq|p r Hg Hr|u Hu|c Hf Hg|c Hf Hd|Hf Hd].
    + (* the server ends *) exists g. destruct Ho2. constructor; auto.
    + (* between awaits *)
      assert (p <> Fresh) as Hnf by (intros ->; destruct (N7 (N8 eq_refl)); tauto).
      assert (i < g) as Hig.
      { destruct (Nat.lt_ge_cases i g) as [|Hge]; auto. exfalso. destruct (or_after _ _ _ Ho _ _ _ E Hge) as [->|[Hx|[[-> _]|[-> _]]]]; try congruence.
        unfold less in Hl. simpl in Hl. lia. }
      assert (holds_guard p = true) as Hgp.
      { pose proof (or_before _ _ _ Ho _ _ _ E Hig). destruct p; try discriminate; auto; try congruence. unfold less in Hl. simpl in Hl. lia. }
      assert (settled p' = true) as Hsp.
      { destruct p'; simpl in *; try congruence. destruct (N7 eq_refl). congruence. }
      exists g. destruct Ho2 as [H1 H2 H3 H4 H5 H6 H7 H8 H9]. constructor; simpl; auto.
      * intros j m' q Hj Hjg. apply nth_set_inv in Hj as [(-> & -> & _)|[Hn Hj]]; eauto.
      * intros j m' q Hj Hjg. apply nth_set_inv in Hj as [(-> & -> & _)|[Hn Hj]]; eauto. lia.
      * intros a b m1 m2 p2 Hj Hk Hab. apply nth_set_inv in Hj as [(-> & Hx & _)|[Hn Hj]]; [congruence|].
        apply nth_set_inv in Hk as [(-> & -> & q0 & Hk)|[Hn' Hk]]; eauto.
        exfalso. rewrite E in Hk. injection Hk as <- <-. destruct (H4 _ _ _ _ _ Hj E Hab); subst; try congruence. discriminate.
      * intros j m' c Hj. apply nth_set_inv in Hj as [(-> & Hx & _)|[Hn Hj]]; eauto. subst p'. discriminate.
      * intros j m' q Hj Hgq. apply nth_set_inv in Hj as [(-> & -> & q0 & Hj)|[Hn Hj]]; eauto.
        rewrite E in Hj. injection Hj as <- <-. eauto.
    + (* joins the queue *)
      assert (p = Fresh) as ->.
      { destruct Hf as [|Hf]; auto. exfalso. subst p. pose proof (inv_pc _ _ _ _ _ _ Hi _ _ _ E) as Hx. simpl in Hx. rewrite Hx in Hm. apply Hm. exact I. }
      assert (is_fresh s i) as Hisf by (exists m; auto).
      assert (g <= i) as Hgi.
      { destruct (Nat.lt_ge_cases i g) as [Hlt|]; auto. apply (or_before _ _ _ Ho _ _ _ E) in Hlt. discriminate. }
      exists g. destruct Ho2 as [H1 H2 H3 H4 H5 H6 H7 H8 H9]. constructor; simpl; auto.
      * intros j m' q Hj Hjg. apply nth_set_inv in Hj as [(-> & -> & _)|[Hn Hj]]; eauto. lia.
      * intros j m' q Hj Hjg. apply nth_set_inv in Hj as [(-> & -> & _)|[Hn Hj]]; eauto.
      * intros a b m1 m2 p2 Hj Hk Hab. apply nth_set_inv in Hj as [(-> & Hx & _)|[Hn Hj]]; [subst p'; discriminate|].
        apply nth_set_inv in Hk as [(-> & -> & _)|[Hn' Hk]]; eauto.
        exfalso. apply (Hfr _ eq_refl Hisf _ Hab). exists m1. auto.
      * apply sorted_snoc; auto. intros j Hj. apply (inv_queue _ _ _ _ _ _ Hi) in Hj as (m' & q & Hj & Hq).
        destruct (Nat.lt_trichotomy j i) as [|[->|Hlt]]; auto; exfalso.
        -- rewrite E in Hj. injection Hj as <- <-. discriminate.
        -- destruct (H4 _ _ _ _ _ E Hj Hlt); subst q; discriminate.
      * intros j m' c Hj. apply nth_set_inv in Hj as [(-> & Hx & q0 & Hj)|[Hn Hj]]; eauto.
        rewrite E in Hj. injection Hj as <- <-. apply Htx; auto.
      * intros j m' q Hj Hgq. apply nth_set_inv in Hj as [(-> & -> & _)|[Hn Hj]]; eauto. destruct p'; discriminate.
    + (* a request finishes *)
      assert (i < g) as Hig.
      { destruct (Nat.lt_ge_cases i g) as [|Hge]; auto. exfalso. destruct (or_after _ _ _ Ho _ _ _ E Hge) as [->|[Hx|[[-> _]|[-> _]]]]; try discriminate.
        destruct p; discriminate. }
      exists g. destruct Ho2 as [H1 H2 H3 H4 H5 H6 H7 H8 H9]. constructor; simpl; auto.
      * intros j m' q Hj Hjg. apply nth_set_inv in Hj as [(-> & -> & _)|[Hn Hj]]; eauto.
      * intros j m' q Hj Hjg. apply nth_set_inv in Hj as [(-> & -> & _)|[Hn Hj]]; eauto. lia.
      * intros a b m1 m2 p2 Hj Hk Hab. apply nth_set_inv in Hj as [(-> & Hx & _)|[Hn Hj]]; [congruence|].
        apply nth_set_inv in Hk as [(-> & -> & q0 & Hk)|[Hn' Hk]]; eauto.
        exfalso. rewrite E in Hk. injection Hk as <- <-. destruct (H4 _ _ _ _ _ Hj E Hab); subst; discriminate.
      * intros j m' c Hj. apply nth_set_inv in Hj as [(-> & Hx & _)|[Hn Hj]]; eauto. discriminate.
      * intros j m' q Hj Hgq. apply nth_set_inv in Hj as [(-> & -> & q0 & Hj)|[Hn Hj]]; eauto. discriminate.
      * intros j uri r' Hj Hn. apply sent_new in Hj as [Hj|[-> ->]]; eauto. apply Hans; auto; [congruence|].
        assert (m = MDiagnose uri) as -> by congruence. apply (H8 _ _ _ E Hg).
    + (* a change without text *)
      assert (g <= i) as Hgi.
      { destruct (Nat.lt_ge_cases i g) as [Hlt|]; auto. apply (or_before _ _ _ Ho _ _ _ E) in Hlt. discriminate. }
      assert (is_fresh s i) as Hisf by (exists m; auto).
      exists g. destruct Ho2 as [H1 H2 H3 H4 H5 H6 H7 H8 H9]. constructor; simpl; auto.
      * intros j m' q Hj Hjg. apply nth_set_inv in Hj as [(-> & -> & _)|[Hn Hj]]; eauto.
      * intros j m' q Hj Hjg. apply nth_set_inv in Hj as [(-> & -> & q0 & Hj)|[Hn Hj]]; eauto.
        rewrite E in Hj. injection Hj as <- <-. eauto 6.
      * intros a b m1 m2 p2 Hj Hk Hab. apply nth_set_inv in Hj as [(-> & Hx & _)|[Hn Hj]]; [congruence|].
        apply nth_set_inv in Hk as [(-> & -> & _)|[Hn' Hk]]; eauto.
        exfalso. apply (Hfr _ eq_refl Hisf _ Hab). exists m1. auto.
      * intros j m' c Hj. apply nth_set_inv in Hj as [(-> & Hx & _)|[Hn Hj]]; eauto. discriminate.
      * intros j m' q Hj Hgq. apply nth_set_inv in Hj as [(-> & -> & q0 & Hj)|[Hn Hj]]; eauto. discriminate.
      * intros j uri r' Hj Hn. apply sent_new in Hj as [Hj|[-> ->]]; eauto. congruence.
    + (* the document is replaced *)
      destruct (frontier _ _ _ _ _ _ Hi2 Ho2 E eq_refl Hf) as (Hgi & Hbef & Hlt).
      pose proof (or_text _ _ _ Ho2 _ _ _ E) as Htx.
      exists (S i). destruct Ho2 as [H1 H2 H3 H4 H5 H6 H7 H8 H9]. constructor; simpl; auto.
      * apply nth_error_Some. congruence.
      * intros j m' q Hj Hjg. apply nth_set_inv in Hj as [(-> & -> & _)|[Hn Hj]]; eauto. apply (Hbef _ _ _ Hj). lia.
      * intros j m' q Hj Hjg. apply nth_set_inv in Hj as [(-> & -> & _)|[Hn Hj]]; [lia|]. apply (H3 _ _ _ Hj). lia.
      * intros a b m1 m2 p2 Hj Hk Hab. apply nth_set_inv in Hj as [(-> & Hx & _)|[Hn Hj]]; [congruence|].
        apply nth_set_inv in Hk as [(-> & -> & q0 & Hk)|[Hn' Hk]]; eauto.
        exfalso. rewrite E in Hk. injection Hk as <- <-. destruct (H4 _ _ _ _ _ Hj E Hab); discriminate.
      * apply sorted_filter; auto.
      * intros uri. match goal with |- _ = ?R => change (doc_lookup uri (sync (docs s) (uri_of m) c) = R) end.
        rewrite doc_lookup_sync, (last_text_next _ _ _ _ Hmsg), H6, Hlt.
        destruct (String.eqb_spec (uri_of m) uri) as [<-|Hne]; [rewrite Htx; auto|]. rewrite text_for_other; auto.
      * intros j m' c' Hj. apply nth_set_inv in Hj as [(-> & Hx & _)|[Hn Hj]]; eauto. discriminate.
      * intros j m' q Hj Hgq. apply nth_set_inv in Hj as [(-> & -> & q0 & Hj)|[Hn Hj]]; [discriminate|]. exfalso.
        assert (guarded s = true) as Hx; [|congruence]. apply existsb_exists. exists (m', q). split; auto. eapply nth_error_In; eauto.
      * intros j uri r' Hj Hn. apply sent_new in Hj as [Hj|[-> ->]]; eauto. rewrite Hmsg in Hn. injection Hn as ->. discriminate.
    + (* a request gets the read guard *)
      destruct (frontier _ _ _ _ _ _ Hi2 Ho2 E eq_refl Hf) as (Hgi & Hbef & Hlt).
      pose proof (inv_pc _ _ _ _ _ _ Hi _ _ _ E) as Hrq. simpl in Hrq. apply is_req in Hrq.
      assert (forall uri, text_for uri m = None) as Hnt by (intros; rewrite Hrq; auto).
      exists (S i). destruct Ho2 as [H1 H2 H3 H4 H5 H6 H7 H8 H9]. constructor; simpl; auto.
      * apply nth_error_Some. congruence.
      * intros j m' q Hj Hjg. apply nth_set_inv in Hj as [(-> & -> & _)|[Hn Hj]]; eauto. apply (Hbef _ _ _ Hj). lia.
      * intros j m' q Hj Hjg. apply nth_set_inv in Hj as [(-> & -> & _)|[Hn Hj]]; [lia|]. apply (H3 _ _ _ Hj). lia.
      * intros a b m1 m2 p2 Hj Hk Hab. apply nth_set_inv in Hj as [(-> & Hx & _)|[Hn Hj]]; [congruence|].
        apply nth_set_inv in Hk as [(-> & -> & q0 & Hk)|[Hn' Hk]]; eauto.
        exfalso. rewrite E in Hk. injection Hk as <- <-. destruct (H4 _ _ _ _ _ Hj E Hab); discriminate.
      * apply sorted_filter; auto.
      * intros uri. rewrite (last_text_next _ _ _ _ Hmsg), H6, Hlt, Hnt. auto.
      * intros j m' c' Hj. apply nth_set_inv in Hj as [(-> & Hx & _)|[Hn Hj]]; eauto. discriminate.
      * intros j m' q Hj Hgq. apply nth_set_inv in Hj as [(-> & -> & q0 & Hj)|[Hn Hj]]; eauto.
        rewrite E in Hj. injection Hj as <- <-. rewrite Hlt. auto.
    + (* a request for an unknown document *)
      destruct (frontier _ _ _ _ _ _ Hi2 Ho2 E eq_refl Hf) as (Hgi & Hbef & Hlt).
      pose proof (inv_pc _ _ _ _ _ _ Hi _ _ _ E) as Hrq. simpl in Hrq. apply is_req in Hrq.
      assert (forall uri, text_for uri m = None) as Hnt by (intros; rewrite Hrq; auto).
      exists (S i). destruct Ho2 as [H1 H2 H3 H4 H5 H6 H7 H8 H9]. constructor; simpl; auto.
      * apply nth_error_Some. congruence.
      * intros j m' q Hj Hjg. apply nth_set_inv in Hj as [(-> & -> & _)|[Hn Hj]]; eauto. apply (Hbef _ _ _ Hj). lia.
      * intros j m' q Hj Hjg. apply nth_set_inv in Hj as [(-> & -> & _)|[Hn Hj]]; [lia|]. apply (H3 _ _ _ Hj). lia.
      * intros a b m1 m2 p2 Hj Hk Hab. apply nth_set_inv in Hj as [(-> & Hx & _)|[Hn Hj]]; [congruence|].
        apply nth_set_inv in Hk as [(-> & -> & q0 & Hk)|[Hn' Hk]]; eauto.
        exfalso. rewrite E in Hk. injection Hk as <- <-. destruct (H4 _ _ _ _ _ Hj E Hab); discriminate.
      * apply sorted_filter; auto.
      * intros uri. rewrite (last_text_next _ _ _ _ Hmsg), H6, Hlt, Hnt. auto.
      * intros j m' c' Hj. apply nth_set_inv in Hj as [(-> & Hx & _)|[Hn Hj]]; eauto. discriminate.
      * intros j m' q Hj Hgq. apply nth_set_inv in Hj as [(-> & -> & q0 & Hj)|[Hn Hj]]; eauto. discriminate.
      * intros j uri r' Hj Hn. apply sent_new in Hj as [Hj|[-> ->]]; eauto. rewrite Hmsg in Hn. injection Hn as ->.
        apply Hans; auto. rewrite Hlt. auto.
  - (* a request is cancelled *)
    pose proof (ordered_later _ (LCancel i) _ _ Ho eq_refl) as Ho2. set (ls' := ls ++ [LCancel i]) in *.
    unfold cancel in Ha. destruct (nth_error (tasks s) i) as [[m p]|] eqn:E; [|discriminate].
    destruct (is_request m && negb (is_over p)) eqn:Eo; [|discriminate]. injection Ha as <-. apply andb_prop in Eo as [Hr Hov].
    exists g. destruct Ho2 as [H1 H2 H3 H4 H5 H6 H7 H8 H9]. constructor; simpl; auto.
    + intros j m' q Hj Hjg. apply nth_set_inv in Hj as [(-> & -> & _)|[Hn Hj]]; eauto.
    + intros j m' q Hj Hjg. apply nth_set_inv in Hj as [(-> & -> & q0 & Hj)|[Hn Hj]]; eauto.
      rewrite E in Hj. injection Hj as <- <-. auto.
    + intros a b m1 m2 p2 Hj Hk Hab. apply nth_set_inv in Hj as [(-> & Hx & _)|[Hn Hj]]; [congruence|].
      apply nth_set_inv in Hk as [(-> & -> & q0 & Hk)|[Hn' Hk]]; eauto.
    + apply sorted_filter; auto.
    + intros j m' c' Hj. apply nth_set_inv in Hj as [(-> & Hx & _)|[Hn Hj]]; eauto. discriminate.
    + intros j m' q Hj Hgq. apply nth_set_inv in Hj as [(-> & -> & q0 & Hj)|[Hn Hj]]; eauto. discriminate.
  - injection Ha as <-. pose proof (ordered_later _ (LDisk d) _ _ Ho eq_refl) as Ho2. exists g. destruct Ho2. constructor; auto.
Qed.

Lemma ordered_start : ordered [] (start d0) 0.
Proof.
  constructor; simpl; auto; try (intros [|i] *; discriminate); try tauto. constructor.
Qed.
Lemma ordered_steps ls s : begun_in_order ls -> Forall (fun m => ~ saves_from_disk m) (arrivals ls) ->
  steps (start d0) ls = Some s -> exists g, ordered ls s g.
Proof.
  revert s. induction ls as [|l ls IH] using rev_ind; intros s Hb Hn Hs.
  - injection Hs as <-. exists 0. apply ordered_start.
  - pose proof (inv_steps _ _ _ _ _ _ Hs) as Hi'. apply steps_snoc in Hs as (s1 & Hs & Ha).
    pose proof Hn as Hn'. rewrite arrivals_app in Hn'. apply Forall_app in Hn' as [Hn1 _].
    destruct (IH s1) as (g & Ho); auto.
    + intros a i b s2 Hab. apply (Hb a i (b ++ [l])). rewrite Hab, <- app_assoc. auto.
    + eapply ordered_step; eauto using inv_steps. intros i -> Hf. apply (Hb ls i [] s1); auto.
Qed.
End Proofs.
