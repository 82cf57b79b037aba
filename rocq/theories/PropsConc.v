(** C49-C52: the concurrent language server. *)
From Coq Require Import String Ascii NArith Bool List Arith Lia.
From Verif Require Import Base Token Lexer Errors Ast Parser Semantic Tdg Api Lsp StrFacts SpecIo IoProofs Conc SpecConc ConcProofs ConcProofs2 ConcProofs3 PropsLex PropsParse PropsSem.
Import ListNotations.
Open Scope string_scope.
Open Scope list_scope.

Section Props.
Context `{Unicode}.
Variable he : hash_env.
Variables fuel limit : nat.
Variable d0 : disk.
Notation steps := (steps he fuel limit).
Notation act := (act he fuel limit).
Notation poll := (poll he fuel limit).

(** ** C49: handling messages concurrently is handling them one by one *)
(** In the order in which the handlers complete, each message has been handled
    as if nothing else was going on, whatever the interleaving. *)
Theorem C49_serial : forall ls s, steps (start d0) ls = Some s ->
  served he fuel limit d0 ls [] (sent s) (docs s).
Proof. intros ls s Hs. eapply inv_served. apply inv_steps. auto. Qed.

(** Every message is completed at most once; requests are completed with a
    reply and notifications without one. *)
Theorem C49_one_reply : forall ls s, steps (start d0) ls = Some s ->
  NoDup (map fst (sent s))
  /\ forall i r, In (i, r) (sent s) -> exists m, nth_error (arrivals ls) i = Some m /\ (is_request m = true <-> r <> None).
Proof.
  intros ls s Hs. split; [eapply inv_once, inv_steps; eauto|].
  pose proof (C49_serial _ _ Hs) as Hse. intros i r Hi.
  remember [] as ds0. clear Heqds0. induction Hse as [|ds j m e ds1 r' out ds2 Hn Ha Hh Hs' IH]; [destruct Hi|].
  destruct Hi as [Hi|Hi]; auto. injection Hi as -> ->. exists m. split; auto.
  inversion Ha; subst; simpl in *; try (injection Hh as <- <-; split; congruence).
  - destruct cs; injection Hh as <- <-; split; congruence.
  - unfold obind in Hh. destruct (diagnose _ _ _ _ _); try discriminate. injection Hh as <- <-. split; [discriminate|auto].
Qed.

(** The document under diagnosis does not change before the reply. *)
Lemma guard_step ls s l s' i m p : inv he fuel limit d0 ls s -> act s l = Some s' ->
  nth_error (tasks s) i = Some (m, p) -> holds_guard p = true -> docs s' = docs s.
Proof.
  intros Hi Ha E Hg. unfold Conc.act in Ha. destruct (state s); try discriminate. destruct l as [m'|k|k|d].
  - injection Ha as <-. auto.
  - apply poll_cases in Ha as (m' & p' & E' & Hp). destruct Hp; auto. exfalso.
    assert (guarded s = true) as Hx; [|congruence]. apply existsb_exists. exists (m, p). split; auto. eapply nth_error_In; eauto.
  - unfold cancel in Ha. destruct (nth_error (tasks s) k) as [[m' p']|]; [|discriminate].
    destruct (is_request m' && negb (is_over p')); [|discriminate]. injection Ha as <-. auto.
  - injection Ha as <-. auto.
Qed.
Theorem C49_document_stable : forall ls s ls' s' i m p p', steps (start d0) ls = Some s -> steps s ls' = Some s' ->
  nth_error (tasks s) i = Some (m, p) -> holds_guard p = true ->
  nth_error (tasks s') i = Some (m, p') -> holds_guard p' = true -> docs s' = docs s.
Proof.
  intros ls s ls' s' i m p p' Hs H2 E Hg. revert s' p' H2.
  induction ls' as [|l ls' IH] using rev_ind; intros s' p' H2 E' Hg'.
  - injection H2 as <-. auto.
  - apply steps_snoc in H2 as (s1 & H1 & Ha).
    assert (past s1 i) as (m1 & p1 & E1 & Hp1).
    { clear - E Hg H1. revert s1 H1. induction ls' as [|l ls' IH] using rev_ind; intros s1 H1.
      - injection H1 as <-. exists m, p. auto.
      - apply steps_snoc in H1 as (s2 & H2 & Ha). eapply past_step; eauto. }
    assert (steps (start d0) (ls ++ ls') = Some s1) as Hs1 by (rewrite steps_app, Hs; auto). apply inv_steps in Hs1.
    destruct Hp1 as [Hp1|Hp1].
    + rewrite (guard_step _ _ _ _ _ _ _ Hs1 Ha E1 Hp1). destruct (task_step _ _ _ _ _ _ _ _ _ Ha E1) as [E2|[[_ Hpo]|(_ & -> & _)]].
      * rewrite E' in E2. injection E2 as <- <-. eauto.
      * assert (m1 = m) as ->; [|eauto]. destruct Hpo; simpl in E'; rewrite ?(nth_set_same _ _ _ _ _ E1) in E'; congruence.
      * simpl in E'. rewrite (nth_set_same _ _ _ _ _ E1) in E'. injection E' as <- <-. discriminate.
    + pose proof (over_step _ _ _ _ _ _ _ _ _ Ha E1 Hp1) as E2. rewrite E' in E2. injection E2 as <- <-. destruct p'; discriminate.
Qed.

(** ** C50: everything gets done *)
Theorem C50_no_deadlock : forall ls s i, 0 < limit -> steps (start d0) ls = Some s -> state s = Running -> unfinished s i ->
  exists j s', act s (LPoll j) = Some s'.
Proof.
  intros ls s i Hl Hs Hr Hu. destruct (some_progress he fuel limit d0 ls s i Hl (inv_steps _ _ _ _ _ _ Hs) Hu) as (j & s' & Hp).
  exists j, s'. unfold Conc.act. rewrite Hr. auto.
Qed.
(** Polling comes to an end, whatever happens on the disk meanwhile. *)
Theorem C50_no_endless_work : well_founded (fun s' s => works he fuel limit s s').
Proof. apply no_endless. Qed.
(** So all messages can be completed by polling, unless the server ends (and by
    the two theorems before, polling in any order leads there). *)
Theorem C50_all_done : forall ls s, 0 < limit -> steps (start d0) ls = Some s -> state s = Running ->
  exists ls' s', steps s ls' = Some s' /\ Forall (fun l => exists j, l = LPoll j) ls'
    /\ (state s' <> Running \/ forall i, ~ unfinished s' i).
Proof.
  intros ls s Hl. revert ls. induction s as [s IH] using (well_founded_ind C50_no_endless_work). intros ls Hs Hr.
  destruct (existsb (fun t => negb (is_over (snd t))) (tasks s)) eqn:Eu.
  - apply (some_task (fun p => negb (is_over p))) in Eu as (i & m & p & E & Ho). apply negb_true_iff in Ho.
    destruct (C50_no_deadlock _ _ i Hl Hs Hr) as (j & s1 & Ha); [exists m, p; auto|].
    destruct (state s1) eqn:E1.
    + destruct (IH s1) with (ls := ls ++ [LPoll j]) as (ls' & s' & Hs' & Hf & He); auto.
      * exists [], j. simpl. rewrite Ha. auto.
      * rewrite steps_app, Hs. simpl. rewrite Ha. auto.
      * exists (LPoll j :: ls'), s'. simpl. rewrite Ha. split; auto. split; auto. constructor; eauto.
    + exists [LPoll j], s1. simpl. rewrite Ha. split; auto. split; [repeat constructor; eauto|left; congruence].
    + exists [LPoll j], s1. simpl. rewrite Ha. split; auto. split; [repeat constructor; eauto|left; congruence].
  - exists [], s. split; auto. split; [constructor|]. right. intros i (m & p & E & Ho). apply nth_error_In in E.
    pose proof (no_task (fun p => negb (is_over p)) _ _ _ Eu E) as Hx. cbv beta in Hx. rewrite Ho in Hx. discriminate.
Qed.
(** A message that is not being handled any more has been completed, unless it
    is a request that the client has cancelled. *)
Lemma dropped_cancelled ls s i m : steps (start d0) ls = Some s -> nth_error (tasks s) i = Some (m, Dropped) ->
  In (LCancel i) ls /\ is_request m = true.
Proof.
  revert s. induction ls as [|l ls IH] using rev_ind; intros s Hs E.
  - injection Hs as <-. destruct i; discriminate.
  - apply steps_snoc in Hs as (s1 & Hs & Ha). destruct (nth_error (tasks s1) i) as [[m1 p1]|] eqn:E1.
    + destruct (task_step _ _ _ _ _ _ _ _ _ Ha E1) as [E2|[[_ Hpo]|(-> & -> & Hr & _)]].
      * rewrite E in E2. injection E2 as <- <-. destruct (IH _ Hs E1). split; auto. apply in_app_iff. auto.
      * destruct Hpo; simpl in E; rewrite ?(nth_set_same _ _ _ _ _ E1) in E; try (injection E as <- ->); try congruence; try (injection E as E E'; subst; discriminate).
        -- rewrite E1 in E. injection E as <- ->. destruct (IH _ Hs E1). split; auto. apply in_app_iff. auto.
        -- discriminate.
      * simpl in E. rewrite (nth_set_same _ _ _ _ _ E1) in E. injection E as <-. split; auto. apply in_app_iff. simpl. auto.
    + exfalso. unfold Conc.act in Ha. destruct (state s1); try discriminate. destruct l as [m'|k|k|d].
      * injection Ha as <-. simpl in E. apply nth_error_None in E1. rewrite nth_error_app2 in E; auto.
        destruct (i - length (tasks s1)) as [|[|n]]; simpl in E; discriminate.
      * apply poll_cases in Ha as (m' & p' & E' & Hpo).
        destruct Hpo; simpl in E; rewrite ?nth_set_pc, ?E1 in E; destruct (Nat.eqb i k); discriminate.
      * unfold cancel in Ha. destruct (nth_error (tasks s1) k) as [[m' p']|]; [|discriminate].
        destruct (_ && _); [|discriminate]. injection Ha as <-. simpl in E. rewrite nth_set_pc, E1 in E. destruct (Nat.eqb i k); discriminate.
      * injection Ha as <-. simpl in E. congruence.
Qed.
Theorem C50_answered : forall ls s i m, steps (start d0) ls = Some s -> nth_error (arrivals ls) i = Some m -> ~ unfinished s i ->
  In i (map fst (sent s)) \/ (In (LCancel i) ls /\ is_request m = true).
Proof.
  intros ls s i m Hs Hm Hu. pose proof (inv_steps _ _ _ _ _ _ Hs) as Hi.
  rewrite <- (inv_msgs _ _ _ _ _ _ Hi), nth_error_map in Hm. destruct (nth_error (tasks s) i) as [[m' p]|] eqn:E; [|discriminate].
  injection Hm as ->. destruct (is_over p) eqn:Ho; [|exfalso; apply Hu; exists m, p; auto].
  destruct p; try discriminate.
  - left. apply (inv_sent _ _ _ _ _ _ Hi). eauto.
  - right. eapply dropped_cancelled; eauto.
Qed.
(** Nobody overtakes a handler that waits for the lock. *)
Theorem C50_first_come_first_served : forall ls s i j ls' s', steps (start d0) ls = Some s ->
  waits s i -> has_not_asked s j -> steps s ls' = Some s' -> waits s' i -> ~ got_lock s' j.
Proof. intros. eapply not_overtaken; eauto. Qed.

(** ** C51: the order of arrival *)
(** If handlers begin in the order of arrival and every save notification
    carries its text, then every request is answered from the text the client
    sent last before the request. *)
Theorem C51_replies : forall ls s i uri r, steps (start d0) ls = Some s ->
  begun_in_order he fuel limit d0 ls -> Forall (fun m => ~ saves_from_disk m) (arrivals ls) ->
  nth_error (arrivals ls) i = Some (MDiagnose uri) -> In (i, r) (sent s) ->
  match last_text uri (firstn i (arrivals ls)) with
  | None => r = Some (InvalidParams uri)
  | Some text => exists dir reply, r = Some reply
      /\ (classify text = Some VProblem -> looked_at he fuel limit d0 ls i uri dir)
      /\ diagnose he fuel [(uri, text)] uri dir = Ok reply
  end.
Proof.
  intros ls s i uri r Hs Hb Hn Hi Hin. destruct (ordered_steps _ _ _ _ _ _ Hb Hn Hs) as (g & Ho).
  apply (or_sent _ _ _ _ _ _ _ Ho _ _ _ Hin Hi).
Qed.
(** When everything is done, the server has the text sent last for every document. *)
Theorem C51_documents : forall ls s, steps (start d0) ls = Some s ->
  begun_in_order he fuel limit d0 ls -> Forall (fun m => ~ saves_from_disk m) (arrivals ls) ->
  (forall i, ~ unfinished s i) -> forall uri, doc_lookup uri (docs s) = last_text uri (arrivals ls).
Proof.
  intros ls s Hs Hb Hn Hu uri. destruct (ordered_steps _ _ _ _ _ _ Hb Hn Hs) as (g & Ho).
  rewrite (or_docs _ _ _ _ _ _ _ Ho). rewrite <- (firstn_all (arrivals ls)) at 2. symmetry. apply last_text_skip.
  - apply (or_le _ _ _ _ _ _ _ Ho).
  - intros j m Hg Hj E. apply inv_steps in Hs. rewrite <- (inv_msgs _ _ _ _ _ _ Hs), nth_error_map in E.
    destruct (nth_error (tasks s) j) as [[m' p]|] eqn:Et; [|discriminate]. injection E as ->.
    destruct (or_after _ _ _ _ _ _ _ Ho _ _ _ Et Hg) as [->|[Hw|[[-> Hr]|[-> [u ->]]]]]; auto.
    + exfalso. apply (Hu j). exists m, Fresh. auto.
    + exfalso. apply (Hu j). exists m, p. split; auto. destruct p; discriminate || auto.
    + apply is_req in Hr. rewrite Hr. auto.
Qed.

(** ** When the server ends *)
Lemma report_no_err {A} (r : outcome A) e : report r = Err e -> False.
Proof.
  destruct r as [a|x|p|]; simpl; try discriminate. destruct (to_diagnostic x) as [| |  |] eqn:E; simpl; try discriminate.
  intros Hx. clear Hx. revert E. destruct x as [l|l|x]; simpl.
  - unfold line_diag. destruct (_ =? _)%N; discriminate.
  - unfold line_diag. destruct (_ =? _)%N; discriminate.
  - destruct x; simpl; unfold line_diag; repeat match goal with |- context [match ?x with _ => _ end] => destruct x end; discriminate.
Qed.
Lemma obind_err {A B} (o : outcome A) (f : A -> outcome B) e : obind o f = Err e -> o = Err e \/ exists a, o = Ok a /\ f a = Err e.
Proof. destruct o; simpl; try discriminate; eauto. intros E. injection E as ->. auto. Qed.
Lemma diagnose_domain_no_err n c e : diagnose_domain he n c = Err e -> False.
Proof.
  unfold diagnose_domain. intros E. apply obind_err in E as [E|([o l] & _ & E)]; [eapply report_no_err; eauto|].
  simpl in E. destruct o as [[d|p]|]; try discriminate.
  apply obind_err in E as [E|(a & _ & E)]; [eapply report_no_err; eauto|discriminate].
Qed.
Lemma diagnose_problem_no_err n d c e : diagnose_problem he n d c = Err e -> False.
Proof.
  unfold diagnose_problem. intros E. apply obind_err in E as [E|([o l] & _ & E)].
  - destruct d as [d|]; [|discriminate]. apply obind_err in E as [E|([o l] & _ & E)]; [eapply report_no_err; eauto|].
    simpl in E. destruct o as [[d'|p]|]; try discriminate.
    apply obind_err in E as [E|(a & _ & E)]; [eapply report_no_err; eauto|discriminate].
  - apply obind_err in E as [E|([o' l'] & _ & E)]; [eapply report_no_err; eauto|].
    simpl in E. destruct o' as [[d'|p]|]; try discriminate. destruct o as [tb|]; try discriminate.
    apply obind_err in E as [E|(a & _ & E)]; [eapply report_no_err; eauto|discriminate].
Qed.
Lemma fatal_conclude ls s i j uri dir o : (forall c, doc_lookup uri (docs s) = Some c -> classify c = Some VProblem -> looked_at he fuel limit d0 ls i uri dir) ->
  diagnose he fuel (docs s) uri dir = obind o (fun l => Ok (Report l)) ->
  (forall e, o = Err e -> False) -> state s = Running -> state (conclude s j o) <> Running ->
  fatal he fuel limit d0 ls s i (MDiagnose uri) (state (conclude s j o)).
Proof.
  intros Hl Hd Hn Hr Hs. destruct o as [l|e|p|]; simpl in *.
  - congruence.
  - destruct (Hn e eq_refl).
  - apply fatal_analysis with (dir := dir); auto.
  - apply fatal_endless with (dir := dir); auto.
Qed.
(** The server ends only for one of these reasons, at the message and with the
    disk of this moment. *)
Theorem C50_ends_only : forall ls s, steps (start d0) ls = Some s -> state s <> Running ->
  exists ls1 i s1 m, ls = ls1 ++ [LPoll i] /\ steps (start d0) ls1 = Some s1
    /\ nth_error (arrivals ls1) i = Some m /\ fatal he fuel limit d0 ls1 s1 i m (state s).
Proof.
  intros ls s Hs Hn. destruct ls as [|l0 ls0] using rev_ind; [injection Hs as <-; exfalso; apply Hn; auto|].
  apply steps_snoc in Hs as (s1 & Hs & Ha). unfold Conc.act in Ha. destruct (state s1) eqn:Est; try discriminate.
  destruct l0 as [m|i|i|d].
  - injection Ha as <-. simpl in Hn. congruence.
  - exists ls0, i, s1. pose proof (inv_steps _ _ _ _ _ _ Hs) as Hi.
    unfold Conc.poll in Ha. destruct (nth_error (tasks s1) i) as [[m p]|] eqn:E; [|discriminate].
    exists m. split; auto. split; auto. split; [eapply msg_at; eauto|].
    pose proof (inv_pc _ _ _ _ _ _ Hi _ _ _ E) as Hok.
    destruct p; cbn [pc_ok] in Hok; try discriminate.
    + destruct (Nat.ltb _ _); [|discriminate]. destruct m as [u t|u [t|]|u [|t cs]|u]; injection Ha as <-; simpl in Hn; congruence.
    + destruct (read_file (disk_now s1) (url_path (uri_of m))) as [c|] eqn:Er; injection Ha as <-; simpl in *; [congruence|].
      rewrite Hok. apply fatal_save. auto.
    + destruct (_ && _); [|discriminate]. injection Ha as <-. simpl in Hn. congruence.
    + destruct (first_waiter s1 i); [|discriminate]. destruct (doc_lookup _ _); injection Ha as <-; simpl in Hn; congruence.
    + destruct Hok as (Hr & c & Hc). rewrite Hc in Ha. apply is_req in Hr.
      destruct (to_file_path (uri_of m)) as [path|] eqn:Ef; [|injection Ha as <-; rewrite Hr; apply fatal_url; auto].
      destruct (classify c) as [[| |]|] eqn:Ec.
      * injection Ha as <-. simpl in Hn. congruence.
      * destruct (parent path) as [folder|] eqn:Ep; injection Ha as <-; [simpl in Hn; congruence|].
        rewrite Hr. eapply fatal_root; eauto.
      * injection Ha as <-. simpl in Hn. congruence.
      * injection Ha as <-. rewrite Hr. apply fatal_analysis with (dir := []); [intros c'; rewrite Hc; congruence|]. unfold diagnose. rewrite Hc, Ec. auto.
    + destruct Hok as (Hr & c & Hc & Hk). rewrite Hc in Ha. apply is_req in Hr. injection Ha as <-. rewrite Hr at 1.
      eapply fatal_conclude with (dir := []); auto; [intros c'; rewrite Hc; congruence| |intros e; apply diagnose_domain_no_err].
      unfold diagnose. rewrite Hc, Hk. auto.
    + destruct Hok as (Hr & c & path & Hc & Hk & Hf & Hpa). apply is_req in Hr.
      destruct (read_dir (disk_now s1) folder) eqn:Ed; injection Ha as <-; [simpl in Hn; congruence|].
      rewrite Hr. eapply fatal_folder; eauto.
    + destruct Hok as (Hr & c & dir & Hc & Hk & path & folder & seen & Hf & Hpa & _). apply is_req in Hr.
      destruct entries as [|pa entries]; [|destruct (known_extension pa); injection Ha as <-; simpl in Hn; congruence].
      unfold folder_printable in Ha. rewrite Hf, Hpa in Ha.
      destruct (utf8_ok folder) eqn:Eu; injection Ha as <-; [simpl in Hn; congruence|]. rewrite Hr. eapply fatal_name; eauto.
    + destruct Hok as (Hr & c & dir & Hc & Hk & (pa & folder & seen & Hf & Hpa & Hl & _) & Hx). apply is_req in Hr.
      assert (In path (seen ++ path :: entries)) as Hin by (apply in_app_iff; simpl; auto).
      destruct (read_file (disk_now s1) path) as [cc|] eqn:Erf; [|injection Ha as <-; rewrite Hr; eapply fatal_file; eauto].
      unfold folder_printable in Ha. rewrite Hf, Hpa in Ha.
      destruct (classify cc) as [[| |]|] eqn:Ecc; [destruct (utf8_ok folder) eqn:Eu| | |];
        injection Ha as <-; try (simpl in Hn; congruence).
      * rewrite Hr. eapply fatal_name; eauto.
      * rewrite Hr. eapply fatal_file_text; eauto.
    + destruct Hok as (Hr & c & dir & Hc & Hk & Hla & Hfd). rewrite Hc in Ha. apply is_req in Hr. injection Ha as <-. rewrite Hr at 1.
      eapply fatal_conclude with (dir := dir); auto; [|intros e; apply diagnose_problem_no_err].
      unfold diagnose. rewrite Hc, Hk, Hfd. auto.
    + destruct Hok as (Hr & c & dir & Hc & Hk & Hla & Hfd). rewrite Hc in Ha. apply is_req in Hr. injection Ha as <-. rewrite Hr at 1.
      eapply fatal_conclude with (dir := dir); auto; [|intros e; apply diagnose_problem_no_err].
      unfold diagnose. rewrite Hc, Hk, Hfd. auto.
    + injection Ha as <-. simpl in Hn. congruence.
  - unfold cancel in Ha. destruct (nth_error (tasks s1) i) as [[m p]|]; [|discriminate].
    destruct (_ && _); [|discriminate]. injection Ha as <-. simpl in Hn. congruence.
  - injection Ha as <-. simpl in Hn. congruence.
Qed.
End Props.

(** ** C52: documents and files *)
Lemma hex_value n c : hex n c -> hex_digit c = Some n.
Proof.
  unfold hex. rewrite <- (Nnat.N2Nat.id n) at 3. generalize (N.to_nat n) as k. clear n. intros k H.
  do 16 (destruct k as [|k]; [destruct H as [H|H]; injection H as <-; reflexivity|]).
  destruct H as [H|H]; discriminate H.
Qed.
Lemma hex_not c n (x : ascii) : hex n c -> hex_digit x = None -> c <> x.
Proof. intros E Hx ->. apply hex_value in E. congruence. Qed.
Lemma escaped_none p u x : escaped p u -> (x = "?"%char \/ x = "#"%char) -> split_first x u = None.
Proof.
  intros He Hx. induction He as [|c p u Hc1 Hc2 Hc3 He IH|c n m a b p u Ha Hb Hc He IH]; cbn [split_first]; auto.
  - destruct (Ascii.eqb_spec c x) as [->|]; [exfalso; destruct Hx; congruence|]. rewrite IH. auto.
  - assert (hex_digit x = None) as Hd by (destruct Hx as [-> | ->]; reflexivity).
    pose proof (hex_not _ _ _ Ha Hd). pose proof (hex_not _ _ _ Hb Hd).
    destruct (Ascii.eqb_spec "%" x) as [<-|]; [exfalso; destruct Hx; discriminate|].
    destruct (Ascii.eqb_spec a x); [congruence|]. destruct (Ascii.eqb_spec b x); [congruence|]. rewrite IH. auto.
Qed.
Lemma escaped_decode p u : escaped p u -> percent_decode u = p.
Proof.
  induction 1 as [|c p u Hc1 Hc2 Hc3 He IH|c n m a b p u Ha Hb Hc He IH]; auto.
  - assert (percent_decode (String c u) = String c (percent_decode u)) as ->; [|congruence].
    destruct c as [[] [] [] [] [] [] [] []]; try reflexivity. destruct Hc1. reflexivity.
  - cbn [percent_decode]. rewrite (hex_value _ _ Ha), (hex_value _ _ Hb), IH, Hc. auto.
Qed.
Lemma file_hier p u : escaped p u -> url_hier ("file://" ++ u) = ("//" ++ u)%string.
Proof.
  intros He. unfold url_hier. simpl. unfold upto. simpl.
  rewrite (escaped_none _ _ "#" He) by auto. simpl. rewrite (escaped_none _ _ "?" He) by auto. auto.
Qed.
(** The folder of a document is found through its decoded path ... *)
Theorem C52_request_path : forall p u, escaped p (String "/" u) -> to_file_path ("file:///" ++ u) = Some p.
Proof.
  intros p u He. pose proof (file_hier _ _ He) as Hh. change ("file://" ++ String "/" u)%string with ("file:///" ++ u)%string in Hh.
  unfold to_file_path, url_path, url_host. rewrite Hh. simpl. rewrite <- (escaped_decode _ _ He). auto.
Qed.
(** ... but a save is read through the path as written in the URL: this is the
    saved file exactly if nothing is escaped. *)
Theorem C52_save_path : forall p u, escaped p (String "/" u) ->
  (url_path ("file:///" ++ u) = p <-> ~ str_in "%" u).
Proof.
  intros p u He. pose proof (file_hier _ _ He) as Hh. change ("file://" ++ String "/" u)%string with ("file:///" ++ u)%string in Hh.
  assert (url_path ("file:///" ++ u) = String "/" u) as -> by (unfold url_path; rewrite Hh; reflexivity).
  assert (forall p u, escaped p u -> ~ str_in "%" u -> u = p) as H1.
  { clear. induction 1 as [|c p u Hc1 Hc2 Hc3 He IH|c n m a b p u Ha Hb Hc He IH]; simpl; intros Hn; auto.
    - f_equal. auto.
    - exfalso. auto. }
  assert (forall p u, escaped p u -> String.length p <= String.length u /\ (str_in "%" u -> String.length p < String.length u)) as H2.
  { clear. induction 1 as [|c p u Hc1 Hc2 Hc3 He IH|c n m a b p u Ha Hb Hc He IH]; simpl; [split; [lia|tauto]| |lia].
    split; [lia|]. intros [Hx|Hx]; [congruence|]. destruct IH as [_ IH]. specialize (IH Hx). lia. }
  split.
  - intros <- Hi. apply H2 in He as [_ He]. simpl in He. specialize (He (or_intror Hi)). lia.
  - intros Hn. apply H1; auto. simpl. intros [Hx|Hx]; [discriminate|auto].
Qed.

(** The folder of a file, and the files that may be domains. *)
Lemma split_last_app c x y : ~ str_in c y -> split_last c (x ++ String c y) = Some (x, y).
Proof.
  intros Hn. assert (split_last c y = None) as Hy.
  { induction y as [|a y IH]; auto. simpl in *. rewrite IH by tauto. destruct (Ascii.eqb_spec a c); [subst; tauto|auto]. }
  induction x as [|a x IH]; simpl.
  - rewrite Hy, Ascii.eqb_refl. auto.
  - rewrite IH. auto.
Qed.
Lemma split_last_spec c s : match split_last c s with
  | Some (x, y) => s = (x ++ String c y)%string /\ ~ str_in c y
  | None => ~ str_in c s
  end.
Proof.
  induction s as [|a s IH]; simpl; auto. destruct (split_last c s) as [[x y]|].
  - destruct IH as [-> IH]. auto.
  - destruct (Ascii.eqb_spec a c) as [->|Hn]; [auto|]. tauto.
Qed.
Lemma strip_app x a : a <> "/"%char -> strip_slashes (x ++ String a "") = (x ++ String a "")%string.
Proof.
  intros Ha. induction x as [|b x IH]; simpl.
  - destruct (Ascii.eqb_spec a "/"); [congruence|auto].
  - rewrite IH. destruct x; simpl; rewrite andb_false_r; auto.
Qed.
Lemma last_char s : s = "" \/ exists x a, s = (x ++ String a "")%string.
Proof.
  induction s as [|b s IH]; auto. right. destruct IH as [->|(x & a & ->)].
  - exists "", b. auto.
  - exists (String b x), a. auto.
Qed.
Lemma str_in_app c x y : str_in c (x ++ y) <-> str_in c x \/ str_in c y.
Proof. induction x as [|a x IH]; simpl; [tauto|]. rewrite IH. tauto. Qed.
Lemma app_assoc' x y z : ((x ++ y) ++ z)%string = (x ++ (y ++ z))%string.
Proof. induction x as [|a x IH]; simpl; congruence. Qed.
Theorem C52_folder : forall dir name, name <> "" -> ~ str_in "/" name ->
  (forall dir', dir <> dir' ++ "/")%string ->
  parent (dir ++ "/" ++ name) = Some (if String.eqb dir "" then "/" else dir).
Proof.
  intros dir name Hne Hn Hd. unfold parent. destruct (last_char name) as [->|(x & a & ->)]; [congruence|].
  assert (a <> "/"%char) as Ha by (intros ->; apply Hn, str_in_app; simpl; auto).
  replace (dir ++ "/" ++ x ++ String a "")%string with ((dir ++ "/" ++ x) ++ String a "")%string
    by (rewrite !app_assoc'; auto).
  rewrite strip_app by auto. rewrite !app_assoc'. simpl. rewrite split_last_app by auto.
  destruct (last_char dir) as [->|(y & b & ->)]; auto. rewrite strip_app; [auto|].
  intros ->. eapply Hd. eauto.
Qed.
Theorem C52_extension : forall dir name, ~ str_in "/" name ->
  (known_extension (dir ++ "/" ++ name) = true <->
   exists stem, stem <> "" /\ (name = stem ++ ".hddl" \/ name = stem ++ ".pddl")%string).
Proof.
  intros dir name Hn. unfold known_extension, extension. simpl. rewrite split_last_app by auto. split.
  - destruct (String.eqb name ".."); [discriminate|]. pose proof (split_last_spec "." name) as Hs.
    destruct (split_last "." name) as [[[|a x] y]|]; try discriminate. destruct Hs as [-> _].
    intros E. exists (String a x). split; [discriminate|]. apply orb_prop in E as [E|E]; apply String.eqb_eq in E as ->; auto.
  - intros (stem & Hs & E).
    assert (exists e, (e = "hddl" \/ e = "pddl") /\ name = (stem ++ String "." e)%string) as (e & He & ->) by (destruct E as [->| ->]; eauto).
    assert (String.eqb (stem ++ String "." e) ".." = false) as ->.
    { apply String.eqb_neq. intros Ex. destruct stem as [|a [|b stem]]; [congruence| |]; destruct He as [-> | ->]; simpl in Ex;
        try discriminate; injection Ex as ? ? Ex; destruct stem; discriminate. }
    rewrite split_last_app by (destruct He as [-> | ->]; simpl; intuition discriminate).
    destruct stem; [congruence|]. destruct He as [-> | ->]; auto.
Qed.
Example C52_folder_example : parent "/w/sub/p.hddl" = Some "/w/sub" /\ known_extension "/w/p.hddl" = true
  /\ known_extension "/w/.hddl" = false /\ known_extension "/w/p.hddl.bak" = false.
Proof. repeat split. Qed.

Section Saves.
Context `{Unicode}.
Variable he : hash_env.
Variables fuel limit : nat.
(** A saved file without escapes is taken over. *)
Theorem C52_plain_save : forall p u d text, 0 < limit -> escaped p (String "/" u) -> ~ str_in "%" u ->
  read_file d p = Some text ->
  exists s, steps he fuel limit (start d) [LArrive (MSave ("file:///" ++ u) None); LPoll 0; LPoll 0; LPoll 0] = Some s
    /\ state s = Running /\ doc_lookup ("file:///" ++ u) (docs s) = Some text.
Proof.
  intros p u d text Hl He Hn Hr. apply (C52_save_path _ _ He) in Hn. apply Nat.ltb_lt in Hl.
  cbn -[url_path doc_lookup String.append sync Nat.ltb]. unfold active. cbn -[url_path doc_lookup String.append sync Nat.ltb].
  rewrite Hl. cbn -[url_path doc_lookup String.append sync Nat.ltb]. rewrite Hn, Hr. cbn -[url_path doc_lookup String.append sync Nat.ltb].
  eexists. split; [reflexivity|]. split; auto. cbn -[doc_lookup sync String.append]. rewrite doc_lookup_sync, String.eqb_refl. auto.
Qed.
(** Saving a file whose path needs an escape ends the server, unless some other
    file has the escaped path. *)
Theorem C52_escaped_save_crashes : forall u d, 0 < limit -> read_file d (url_path u) = None ->
  exists s, steps he fuel limit (start d) [LArrive (MSave u None); LPoll 0; LPoll 0] = Some s
    /\ state s = Crashed PanicUnwrap.
Proof.
  intros u d Hl Hr. apply Nat.ltb_lt in Hl.
  cbn -[url_path Nat.ltb]. unfold active. cbn -[url_path Nat.ltb]. rewrite Hl. cbn -[url_path Nat.ltb]. rewrite Hr.
  eexists. split; [reflexivity|]. auto.
Qed.
(** A diagnostic request for a document that is not a file ends the server. *)
Theorem C52_no_file_crashes : forall u text d, 0 < limit -> to_file_path u = None ->
  exists s, steps he fuel limit (start d)
      [LArrive (MOpen u text); LPoll 0; LPoll 0; LArrive (MDiagnose u); LPoll 1; LPoll 1; LPoll 1] = Some s
    /\ state s = Crashed PanicUnwrap.
Proof.
  intros u text d Hl Hr. apply Nat.ltb_lt in Hl.
  cbn -[to_file_path doc_lookup sync Nat.ltb]. unfold active. cbn -[to_file_path doc_lookup sync Nat.ltb]. rewrite Hl. cbn -[to_file_path doc_lookup sync Nat.ltb].
  unfold active. cbn -[to_file_path doc_lookup sync Nat.ltb]. rewrite Hl. cbn -[to_file_path doc_lookup sync Nat.ltb].
  rewrite doc_lookup_sync, String.eqb_refl. cbn -[to_file_path doc_lookup sync Nat.ltb]. rewrite Hr.
  eexists. split; [reflexivity|]. auto.
Qed.

(** A problem in a folder whose name is not text is never diagnosed: the server
    ends, with or without a domain in the folder. *)
Lemma scan_crashes u entries : folder_printable u = false -> forall s,
  nth_error (tasks s) 1 = Some (MDiagnose u, Scan entries) -> state s = Running ->
  Forall (fun p => known_extension p = true -> exists c, read_file (disk_now s) p = Some c /\ classify c <> None) entries ->
  exists k s', steps he fuel limit s (repeat (LPoll 1) k) = Some s' /\ state s' = Crashed PanicUnwrap.
Proof.
  intros Hu. induction entries as [|p entries IH]; intros s Ht Hs Hf.
  - exists 1. simpl. unfold act, Conc.poll. rewrite Hs, Ht. simpl. rewrite Hu. eexists. split; reflexivity.
  - inversion Hf as [|p' l Hp Hf' E1]; subst.
    assert (forall q, nth_error (tasks (goto s 1 q)) 1 = Some (MDiagnose u, q)) as Hset.
    { intros q. unfold goto. cbn [tasks]. eapply nth_set_same; eauto. }
    destruct (known_extension p) eqn:Ek.
    + destruct (Hp eq_refl) as (c & Hr & Hc).
      assert (act he fuel limit s (LPoll 1) = Some (goto s 1 (ReadFile p entries))) as H1
        by (unfold act, Conc.poll; rewrite Hs, Ht, Ek; auto).
      set (s1 := goto s 1 (ReadFile p entries)) in *. pose proof (Hset (ReadFile p entries)) as Ht1. fold s1 in Ht1.
      assert (state s1 = Running) as Hs1 by auto. change (disk_now s) with (disk_now s1) in *.
      destruct (classify c) as [[| |]|] eqn:Ec; [| | |congruence].
      * exists 2. cbn [repeat steps]. rewrite H1. unfold act, Conc.poll. rewrite Hs1, Ht1, Hr, Ec. cbn [uri_of]. rewrite Hu.
        eexists. split; reflexivity.
      * destruct (IH (goto s1 1 (Scan entries))) as (k & s' & Hk & Hd); auto.
        { unfold goto at 1. cbn [tasks]. eapply nth_set_same; eauto. }
        exists (S (S k)), s'. split; auto. cbn [repeat steps]. rewrite H1. unfold act, Conc.poll. rewrite Hs1, Ht1, Hr, Ec. auto.
      * destruct (IH (goto s1 1 (Scan entries))) as (k & s' & Hk & Hd); auto.
        { unfold goto at 1. cbn [tasks]. eapply nth_set_same; eauto. }
        exists (S (S k)), s'. split; auto. cbn [repeat steps]. rewrite H1. unfold act, Conc.poll. rewrite Hs1, Ht1, Hr, Ec. auto.
    + destruct (IH (goto s 1 (Scan entries))) as (k & s' & Hk & Hd); auto.
      exists (S k), s'. split; auto. cbn [repeat steps]. unfold act, Conc.poll. rewrite Hs, Ht, Ek. auto.
Qed.
Theorem C52_unprintable_folder_crashes : forall u text d path folder entries, 0 < limit ->
  to_file_path u = Some path -> parent path = Some folder -> utf8_ok folder = false ->
  classify text = Some VProblem -> read_dir d folder = Some entries ->
  Forall (fun p => known_extension p = true -> exists c, read_file d p = Some c /\ classify c <> None) entries ->
  exists k s, steps he fuel limit (start d)
      ([LArrive (MOpen u text); LPoll 0; LPoll 0; LArrive (MDiagnose u)] ++ repeat (LPoll 1) k) = Some s
    /\ state s = Crashed PanicUnwrap.
Proof.
  intros u text d path folder entries Hl Hp Hf Hu Hc Hd Hes. apply Nat.ltb_lt in Hl.
  destruct (scan_crashes u entries) with
    (s := mkServer (sync [] u text) [(MOpen u text, Done); (MDiagnose u, Scan entries)] [] [(0, None)] Running d)
    as (k & s & Hk & Hs); auto.
  { unfold folder_printable. rewrite Hp, Hf. auto. }
  exists (4 + k), s. split; auto.
  cbn -[to_file_path doc_lookup sync Nat.ltb classify parent repeat]. unfold active.
  cbn -[to_file_path doc_lookup sync Nat.ltb classify parent repeat]. rewrite Hl.
  cbn -[to_file_path doc_lookup sync Nat.ltb classify parent repeat].
  change (repeat (LPoll 1) (S (S (S (S k))))) with (LPoll 1 :: LPoll 1 :: LPoll 1 :: LPoll 1 :: repeat (LPoll 1) k).
  cbn -[to_file_path doc_lookup sync Nat.ltb classify parent repeat].
  unfold active. cbn -[to_file_path doc_lookup sync Nat.ltb classify parent repeat]. rewrite Hl.
  cbn -[to_file_path doc_lookup sync Nat.ltb classify parent repeat].
  rewrite doc_lookup_sync, String.eqb_refl. cbn -[to_file_path doc_lookup sync Nat.ltb classify parent repeat].
  rewrite Hp, ?doc_lookup_sync, ?String.eqb_refl, Hc, Hf. cbn -[to_file_path doc_lookup sync Nat.ltb classify parent repeat].
  rewrite Hd. exact Hk.
Qed.

(** C51 needs that saves carry their text: a save read from the disk can
    replace a later change. *)
Theorem C51_stale_save_refuted : forall u d old new, 2 <= limit -> read_file d (url_path u) = Some old -> old <> new ->
  exists ls s, steps he fuel limit (start d) ls = Some s /\ begun_in_order he fuel limit d ls
    /\ arrivals ls = [MSave u None; MChange u [new]] /\ (forall i, ~ unfinished s i) /\ state s = Running
    /\ doc_lookup u (docs s) = Some old.
Proof.
  intros u d old new Hl Hr Hne.
  assert (Nat.ltb 0 limit = true) as H0 by (apply Nat.ltb_lt; lia).
  assert (Nat.ltb 1 limit = true) as H1 by (apply Nat.ltb_lt; lia).
  exists [LArrive (MSave u None); LArrive (MChange u [new]); LPoll 0; LPoll 1; LPoll 1; LPoll 0; LPoll 0].
  eexists. split.
  { cbn -[url_path doc_lookup sync Nat.ltb]. unfold active. cbn -[url_path doc_lookup sync Nat.ltb]. rewrite H0.
    cbn -[url_path doc_lookup sync Nat.ltb]. unfold active. cbn -[url_path doc_lookup sync Nat.ltb]. rewrite H1.
    cbn -[url_path doc_lookup sync Nat.ltb]. rewrite Hr. cbn -[url_path doc_lookup sync Nat.ltb]. reflexivity. }
  split.
  { intros ls1 i ls2 s E Hs Hf j Hj. 
    destruct ls1 as [|? ls1]; [discriminate|]. injection E as <- E.
    destruct ls1 as [|? ls1]; [discriminate|]. injection E as <- E.
    destruct ls1 as [|? ls1]; [injection E as <- <-; lia|]. injection E as <- E.
    destruct ls1 as [|? ls1].
    { injection E as <- <-. assert (j = 0) as -> by lia. clear Hf. revert Hs.
      cbn -[url_path doc_lookup sync Nat.ltb]. unfold active. cbn -[url_path doc_lookup sync Nat.ltb]. rewrite H0.
      cbn -[url_path doc_lookup sync Nat.ltb]. intros Hs. injection Hs as <-. intros [m Hm]. simpl in Hm. discriminate. }
    injection E as <- E.
    destruct ls1 as [|? ls1].
    { injection E as <- <-. exfalso. revert Hs Hf.
      cbn -[url_path doc_lookup sync Nat.ltb]. unfold active. cbn -[url_path doc_lookup sync Nat.ltb]. rewrite H0.
      cbn -[url_path doc_lookup sync Nat.ltb]. unfold active. cbn -[url_path doc_lookup sync Nat.ltb]. rewrite H1.
      cbn -[url_path doc_lookup sync Nat.ltb]. intros Hs. injection Hs as <-. intros [m Hm]. simpl in Hm. discriminate. }
    injection E as <- E.
    destruct ls1 as [|? ls1]; [injection E as <- <-; lia|]. injection E as <- E.
    destruct ls1 as [|? ls1]; [injection E as <- <-; lia|]. injection E as <- E. destruct ls1; discriminate. }
  split; [reflexivity|]. split.
  { intros [|[|[|i]]] (m & p & E & Ho); simpl in E; try discriminate; injection E as <- <-; discriminate. }
  split; [reflexivity|]. cbn -[doc_lookup sync String.append]. rewrite doc_lookup_sync, String.eqb_refl. auto.
Qed.
End Saves.

(** ** Concrete cases *)
Definition files (l : list (string * string)) : disk :=
  mkDisk (fun p => doc_lookup p l)
         (fun f => Some (map fst (filter (fun e => match parent (fst e) with Some g => String.eqb g f | None => false end) l))).
Definition folder1 : disk := files [("/w/notes.txt", "remember"); ("/w/domain.hddl", dom1); ("/w/p.hddl", prob1)].
Definition run_steps := @steps uni0 env_id 300 4 (start folder1).
(** A problem is diagnosed while a domain is diagnosed; a change of the problem
    waits for both; the second request is cancelled while it waits. *)
Definition busy : list label :=
  [LArrive (MOpen "file:///w/p.hddl" prob1); LArrive (MOpen "file:///w/domain.hddl" dom1);
   LPoll 0; LPoll 1; LPoll 0; LPoll 1;
   LArrive (MDiagnose "file:///w/p.hddl"); LArrive (MDiagnose "file:///w/domain.hddl");
   LArrive (MChange "file:///w/p.hddl" ["(define (problem p) (domain d) oops)"]); LArrive (MDiagnose "file:///w/p.hddl");
   LPoll 2; LPoll 3; LPoll 4; LPoll 2; LPoll 3; LPoll 2; LPoll 3; LPoll 2; LPoll 3; LPoll 2; LPoll 2;
   LArrive (MDiagnose "file:///w/none.hddl"); LDisk folder1; LPoll 5; LCancel 5; LPoll 2; LPoll 2; LPoll 4].
Example C49_example : exists s, run_steps busy = Some s /\ state s = Running
  /\ sent s = [(0, None); (1, None); (3, Some (Report [])); (2, Some (Report [])); (4, None)]
  /\ cancelled s 5 /\ unfinished s 6.
Proof.
  eexists. split; [vm_compute; reflexivity|]. split; [reflexivity|]. split; [reflexivity|]. split.
  - eexists. reflexivity.
  - eexists _, _. split; reflexivity.
Qed.
(** C50: one handler waits, another one has not asked yet. *)
Example C50_example : exists ls s, @steps uni0 env_id 300 4 (start folder1) ls = Some s /\ waits s 2 /\ has_not_asked s 3
  /\ exists m p, nth_error (tasks s) 1 = Some (m, p) /\ holds_guard p = true.
Proof.
  exists [LArrive (MOpen "file:///w/p.hddl" prob1); LPoll 0; LPoll 0; LArrive (MDiagnose "file:///w/p.hddl"); LPoll 1; LPoll 1;
          LArrive (MChange "file:///w/p.hddl" ["x"]); LPoll 2; LArrive (MDiagnose "file:///w/p.hddl")].
  eexists. split; [vm_compute; reflexivity|]. split; [|split].
  - eexists _, _. split; [reflexivity|]. right. eexists. reflexivity.
  - intros m p E. simpl in E. injection E as <- <-. auto.
  - eexists _, _. split; reflexivity.
Qed.
(** C51: begun in order and without saves. *)
Definition fresh_b (s : server) (i : nat) : bool := match nth_error (tasks s) i with Some (_, Fresh) => true | _ => false end.
Fixpoint orderly_b (s : server) (ls : list label) : bool :=
  match ls with
  | [] => true
  | l :: ls' =>
    match l with
    | LPoll i => negb (fresh_b s i && existsb (fresh_b s) (seq 0 i))
    | _ => true
    end && match @act uni0 env_id 300 4 s l with Some s' => orderly_b s' ls' | None => true end
  end.
Lemma fresh_b_iff s i : is_fresh s i <-> fresh_b s i = true.
Proof.
  unfold is_fresh, fresh_b. split; [intros [m ->]; auto|]. destruct (nth_error (tasks s) i) as [[m []]|]; try discriminate. eauto.
Qed.
Lemma orderly_begun d ls : orderly_b (start d) ls = true -> @begun_in_order uni0 env_id 300 4 d ls.
Proof.
  intros Ho ls1 i ls2 s -> Hs Hf j Hj Hfj. revert Ho Hs. generalize (start d). induction ls1 as [|l ls1 IH]; intros s0 Ho Hs; simpl in *.
  - injection Hs as <-. apply andb_prop in Ho as [Ho _]. apply fresh_b_iff in Hf, Hfj. rewrite Hf in Ho. simpl in Ho.
    apply negb_true_iff in Ho. assert (existsb (fresh_b s0) (seq 0 i) = true); [|congruence].
    apply existsb_exists. exists j. split; auto. apply in_seq. lia.
  - apply andb_prop in Ho as [_ Ho]. destruct (act env_id 300 4 s0 l); [|discriminate]. eauto.
Qed.
Example C51_example : @begun_in_order uni0 env_id 300 4 folder1 busy
  /\ Forall (fun m => ~ saves_from_disk m) (arrivals busy)
  /\ last_text "file:///w/p.hddl" (firstn 2 (arrivals busy)) = Some prob1.
Proof.
  split; [apply orderly_begun; vm_compute; reflexivity|]. split; [|reflexivity].
  repeat constructor; intros [].
Qed.
(** The order of the first polls matters. *)
Theorem C51_order_needed_refuted : exists ls s r, @steps uni0 env_id 300 4 (start folder1) ls = Some s
  /\ arrivals ls = [MOpen "file:///w/p.hddl" prob1; MDiagnose "file:///w/p.hddl"] /\ In (1, r) (sent s)
  /\ r = Some (InvalidParams "file:///w/p.hddl").
Proof.
  exists [LArrive (MOpen "file:///w/p.hddl" prob1); LArrive (MDiagnose "file:///w/p.hddl"); LPoll 1; LPoll 1].
  eexists _, _. split; [vm_compute; reflexivity|]. split; [reflexivity|]. split; [left; reflexivity|]. reflexivity.
Qed.
(** C50_ends_only: a file that vanishes between the listing and the reading. *)
Example C50_vanished_example : exists s, @steps uni0 env_id 300 4 (start folder1)
   [LArrive (MOpen "file:///w/p.hddl" prob1); LPoll 0; LPoll 0; LArrive (MDiagnose "file:///w/p.hddl");
    LPoll 1; LPoll 1; LPoll 1; LPoll 1; LPoll 1; LPoll 1; LDisk (files [("/w/p.hddl", prob1)]); LPoll 1] = Some s
  /\ state s = Crashed PanicUnwrap.
Proof. eexists. split; [vm_compute; reflexivity|]. reflexivity. Qed.
(** An unfinished document makes the server hang, whatever the fuel. *)
Lemma truncated_stuck `{Unicode} n : parse n "(define (domain d) (:types a" = OutOfFuel.
Proof.
  destruct n as [|n]; [vm_compute; reflexivity|].
  unfold parse, parse_doc, bind, get.
  repeat (match goal with |- context [get_token ?s] =>
    let v := eval vm_compute in (get_token s) in change (get_token s) with v end;
    cbn [of_lex parse_domain]; unfold parse_document_type, parse_domain_header, bind, get, ret).
  unfold parse_args, bind, get.
  match goal with |- context [get_token ?s] =>
    let v := eval vm_compute in (get_token s) in change (get_token s) with v end.
  cbn [of_lex]. rewrite args_stuck; [reflexivity|vm_compute; reflexivity].
Qed.
Theorem C50_hangs_refuted `{Unicode} : exists text, forall he n limit d, 0 < limit -> exists s,
  steps he n limit (start d)
   [LArrive (MOpen "file:///w/d.hddl" text); LPoll 0; LPoll 0; LArrive (MDiagnose "file:///w/d.hddl");
    LPoll 1; LPoll 1; LPoll 1; LPoll 1] = Some s /\ state s = Hung.
Proof.
  exists "(define (domain d) (:types a". intros he n limit d Hl. apply Nat.ltb_lt in Hl.
  cbn -[classify diagnose_domain Nat.ltb]. unfold active. cbn -[classify diagnose_domain Nat.ltb]. rewrite Hl.
  cbn -[classify diagnose_domain Nat.ltb]. unfold active. cbn -[classify diagnose_domain Nat.ltb]. rewrite Hl.
  cbn -[classify diagnose_domain Nat.ltb].
  match goal with |- context [classify ?x] => let v := eval vm_compute in (classify x) in change (classify x) with v end.
  cbn -[classify diagnose_domain Nat.ltb]. unfold diagnose_domain. rewrite truncated_stuck.
  eexists. split; [reflexivity|]. reflexivity.
Qed.
(** C52: a path with a space. *)
Example C52_example : escaped "/w/my domain.hddl" "/w/my%20domain.hddl"
  /\ to_file_path "file:///w/my%20domain.hddl" = Some "/w/my domain.hddl"
  /\ url_path "file:///w/my%20domain.hddl" = "/w/my%20domain.hddl"
  /\ to_file_path "untitled:Untitled-1" = None.
Proof.
  split; [|repeat split].
  repeat (first [apply esc_nil | apply esc_plain; [discriminate|discriminate|discriminate|]
                | eapply esc_byte with (x := 2%N) (y := 0%N); [left; reflexivity|left; reflexivity|reflexivity|]]).
Qed.

(** A folder named by the byte 255, as in a file system of another encoding. *)
Definition strange : disk := mkDisk (fun _ => Some dom1) (fun _ => Some ["/d.hddl"]).
Example C52_unprintable_example :
  to_file_path "file:///%FF/p.hddl" = Some (String "/" (String "255" "/p.hddl"))
  /\ parent (String "/" (String "255" "/p.hddl")) = Some (String "/" (String "255" ""))
  /\ utf8_ok (String "/" (String "255" "")) = false /\ @classify uni0 prob1 = Some VProblem /\ @classify uni0 dom1 <> None
  /\ exists s, @steps uni0 env_id 300 4 (start strange)
       ([LArrive (MOpen "file:///%FF/p.hddl" prob1); LPoll 0; LPoll 0; LArrive (MDiagnose "file:///%FF/p.hddl")] ++ repeat (LPoll 1) 6)
       = Some s /\ state s = Crashed PanicUnwrap.
Proof.
  repeat (split; [first [vm_compute; reflexivity|vm_compute; discriminate]|]).
  eexists. split; [vm_compute; reflexivity|]. reflexivity.
Qed.

Definition conc_theorems := (@C49_serial, @C49_one_reply, @C49_document_stable, @C50_no_deadlock, @C50_no_endless_work, @C50_all_done,
  @C50_answered, @C50_first_come_first_served, @C50_ends_only, @C50_hangs_refuted, @C51_replies, @C51_documents, @C51_stale_save_refuted,
  @C51_order_needed_refuted, @C52_request_path, @C52_save_path, @C52_folder, @C52_extension, @C52_plain_save, @C52_escaped_save_crashes, @C52_no_file_crashes,
  @C52_unprintable_folder_crashes).
