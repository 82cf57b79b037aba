(** C77: a whole session with the language server. *)
From Coq Require Import String Ascii NArith ZArith Bool List Arith Lia.
From Verif Require Import Base Token Lexer Errors Ast Parser Semantic Tdg Api Lsp SpecIo IoProofs Conc SpecConc ConcProofs
  PropsLex PropsParse PropsSem PropsIo PropsConc Serve SpecServe.
Import ListNotations.
Open Scope string_scope.
Open Scope list_scope.

Section Props.
Context `{Unicode}.
Variable he : hash_env.
Hypothesis Hhe : hash_env_ok he.
Variable fuel : nat.
Notation serve := (serve he fuel).
Notation serve_all := (serve_all he fuel).
Notation answer := (answer he fuel).

Lemma serve_all_app s a b : serve_all s (a ++ b) =
  let (out, f) := serve_all s a in
  match f with
  | Serving s' => let (out', f') := serve_all s' b in (out ++ out', f')
  | Ended h => (out, Ended h)
  end.
Proof.
  revert s. induction a as [|[d m] a IH]; intros s; cbn [app Serve.serve_all].
  - destruct (serve_all s b) as [o f]. auto.
  - destruct (serve s d m) as [o [s'|h]]; auto. rewrite IH.
    destruct (serve_all s' a) as [o' [s''|h]]; auto. destruct (serve_all s'' b) as [o'' f]. rewrite app_assoc. auto.
Qed.
Lemma responded_app a b : responded (a ++ b) = responded a ++ responded b.
Proof. induction a as [|[id bo|t] a IH]; simpl; auto. rewrite IH. auto. Qed.
Lemma responded_logs l : responded (map LogMessage l) = [].
Proof. induction l; simpl; auto. Qed.
Lemma asked_app a b : asked (a ++ b) = asked a ++ asked b.
Proof. induction a as [|[d [id r|n]] a IH]; simpl; auto. rewrite IH. auto. Qed.

(** ** Every request is answered once, in order *)
Definition asks (m : incoming) : list nat := match m with Request id _ => [id] | _ => [] end.
Lemma serve_one s d m : match serve s d m with
  | (out, Serving s') => life_of s = Exited /\ out = [] /\ s' = s \/ responded out = asks m /\ life_of s <> Exited
  | (out, Ended _) => responded out = []
  end.
Proof.
  unfold Serve.serve. destruct (life_of s) eqn:El.
  - destruct m as [id []|[]]; simpl; auto; right; rewrite ?El; split; auto; discriminate.
  - destruct m as [id []|[]]; simpl; auto; try (right; rewrite ?El; split; auto; discriminate).
    + destruct (answer d (texts s) uri) as [logs [r|e|p|]]; rewrite ?responded_app, ?responded_logs; auto.
      right. rewrite ?El. split; auto. discriminate.
    + destruct text; [right; split; auto; discriminate|]. destruct (read_file _ _); auto. right; split; auto; discriminate.
    + destruct changes; right; split; auto; discriminate.
  - destruct m as [id []|[]]; simpl; auto; right; rewrite ?El; split; auto; discriminate.
  - simpl. auto.
Qed.
Lemma asked_cons d m ms : asked ((d, m) :: ms) = asks m ++ asked ms.
Proof. destruct m; auto. Qed.
Theorem C77_one_response : forall ms out s, serve_all new_service ms = (out, Serving s) -> life_of s <> Exited ->
  responded out = asked ms.
Proof.
  intros ms. generalize new_service. induction ms as [|[d m] ms IH]; intros s0 out s Hs Hl; cbn [Serve.serve_all] in Hs.
  - injection Hs as <- <-. auto.
  - pose proof (serve_one s0 d m) as H1. destruct (serve s0 d m) as [o [s1|h]]; [|discriminate].
    destruct (serve_all s1 ms) as [o' f'] eqn:E. injection Hs as <- ->. specialize (IH _ _ _ E Hl).
    rewrite asked_cons, responded_app, IH. destruct H1 as [(He & -> & ->)|[-> _]]; auto.
    exfalso. apply Hl. clear - E He. revert o' E. induction ms as [|[d m] ms IH]; intros o E; cbn [Serve.serve_all] in E.
    + injection E as <- <-. auto.
    + unfold Serve.serve in E. rewrite He in E. destruct (serve_all s0 ms) as [o' f]. injection E as <- ->. eauto.
Qed.
Theorem C77_no_other_response : forall ms out f, serve_all new_service ms = (out, f) ->
  exists rest, asked ms = responded out ++ rest.
Proof.
  intros ms. generalize new_service. induction ms as [|[d m] ms IH]; intros s0 out f Hs; cbn [Serve.serve_all] in Hs.
  - injection Hs as <- <-. exists []. auto.
  - pose proof (serve_one s0 d m) as H1. rewrite asked_cons. destruct (serve s0 d m) as [o [s1|h]].
    + destruct (serve_all s1 ms) as [o' f'] eqn:E. injection Hs as <- <-. rewrite responded_app.
      destruct H1 as [(He & -> & ->)|[-> _]].
      * assert (responded o' = []) as ->; [|eexists; simpl; reflexivity].
        clear - E He. revert o' f' E. induction ms as [|[d m] ms IH]; intros o f E; cbn [Serve.serve_all] in E.
        -- injection E as <- <-. auto.
        -- unfold Serve.serve in E. rewrite He in E. destruct (serve_all s0 ms) as [o' f'] eqn:E'. injection E as <- <-.
           simpl. eapply IH; eauto.
      * destruct (IH _ _ _ E) as [rest ->]. exists rest. rewrite app_assoc. auto.
    + injection Hs as <- <-. rewrite H1. eexists. reflexivity.
Qed.

(** ** The handshake and the end *)
Theorem C77_before_handshake : forall ms, Forall (fun dm => idle (snd dm)) ms ->
  exists out, serve_all new_service ms = (out, Serving new_service) /\ responded out = asked ms /\ Forall (refuses (-32002)) out.
Proof.
  induction ms as [|[d m] ms IH]; intros Hf; cbn [Serve.serve_all].
  - exists []. auto.
  - inversion Hf as [|x l Hm Hf' E1]; subst. destruct (IH Hf') as (out & E & Hr & Ho). simpl in Hm.
    assert (exists o, serve new_service d m = (o, Serving new_service) /\ responded o = asks m /\ Forall (refuses (-32002)) o) as (o & E1 & Hr1 & Ho1).
    { unfold Serve.serve. simpl. destruct m as [id []|[]]; simpl in *; try tauto; eexists; split; try reflexivity;
        split; auto; repeat constructor; repeat eexists; auto. }
    rewrite E1, E. exists (o ++ out). split; auto. rewrite responded_app, Hr, Hr1, asked_cons. split; auto. apply Forall_app; auto.
Qed.
Lemma exited_silent s ms : life_of s = Exited -> serve_all s ms = ([], Serving s).
Proof.
  intros He. induction ms as [|[d m] ms IH]; cbn [Serve.serve_all]; auto. unfold Serve.serve. rewrite He. rewrite IH. auto.
Qed.
Lemma shut_down s ms : life_of s = ShutDown ->
  exists out s', serve_all s ms = (out, Serving s') /\ texts s' = texts s /\ Forall (refuses (-32600)) out.
Proof.
  revert s. induction ms as [|[d m] ms IH]; intros s Hl; cbn [Serve.serve_all]; [eauto 6|].
  unfold Serve.serve. rewrite Hl.
  assert (exists o s1, serve_closed invalid_request s m = (o, Serving s1) /\ texts s1 = texts s /\ Forall (refuses (-32600)) o
    /\ (life_of s1 = ShutDown \/ life_of s1 = Exited)) as (o & s1 & -> & Ht & Ho & Hl1).
  { destruct m as [id []|[]]; simpl; eexists _, _; (split; [reflexivity|]); (split; [reflexivity|]); rewrite ?Hl; simpl; split; auto;
      repeat constructor; repeat eexists; auto. }
  destruct Hl1 as [Hl1|Hl1].
  - destruct (IH _ Hl1) as (out & s' & -> & Ht' & Ho'). exists (o ++ out), s'. split; auto. split; [congruence|]. apply Forall_app; auto.
  - rewrite (exited_silent _ _ Hl1). exists (o ++ []), s1. rewrite app_nil_r. auto.
Qed.
Theorem C77_after_shutdown : forall ms out s d id ms', serve_all new_service ms = (out, Serving s) -> life_of s = Initialized ->
  exists out' s', serve_all new_service (ms ++ (d, Request id RShutdown) :: ms') = (out ++ Respond id Null :: out', Serving s')
    /\ texts s' = texts s /\ Forall (refuses (-32600)) out'.
Proof.
  intros ms out s d id ms' Hs Hl. rewrite serve_all_app, Hs. cbn [Serve.serve_all]. unfold Serve.serve at 1. rewrite Hl. cbn [serve_normal].
  destruct (shut_down (mkService ShutDown (texts s)) ms') as (o & s' & -> & Ht & Ho); auto.
  exists o, s'. auto.
Qed.
Theorem C77_after_exit : forall ms out s d ms', serve_all new_service ms = (out, Serving s) ->
  exists s', serve_all new_service (ms ++ (d, Notify NExit) :: ms') = (out, Serving s').
Proof.
  intros ms out s d ms' Hs. rewrite serve_all_app, Hs. cbn [Serve.serve_all].
  assert (exists s1, serve s d (Notify NExit) = ([], Serving s1) /\ life_of s1 = Exited) as (s1 & -> & Hl).
  { unfold Serve.serve. destruct (life_of s) eqn:E; simpl; eauto. }
  rewrite (exited_silent _ _ Hl). exists s1. rewrite app_nil_r. auto.
Qed.

(** The first handshake is answered with what the server can do: it wants whole
    texts, and is to be asked for diagnostics, which depend on other files.  A
    second handshake is refused. *)
Theorem C77_handshake : forall before d i, Forall (fun dm => idle (snd dm)) before ->
  exists out c s, serve_all new_service (before ++ [(d, Request i RInitialize)]) = (out ++ [Respond i (Capable c)], Serving s)
    /\ full_text_sync c = true /\ diagnostic_identifier c <> None /\ inter_file_dependencies c = true /\ workspace_diagnostics c = false
    /\ forall ms out' s' d' j, serve_all new_service ((before ++ [(d, Request i RInitialize)]) ++ ms) = (out', Serving s') ->
       life_of s' <> Exited ->
       exists o, refuses (-32600) o /\ serve s' d' (Request j RInitialize) = ([o], Serving s').
Proof.
  intros before d i Hb. destruct (C77_before_handshake _ Hb) as (o0 & E0 & _).
  exists o0, initialize, (mkService Initialized []).
  assert (serve_all new_service (before ++ [(d, Request i RInitialize)]) = (o0 ++ [Respond i (Capable initialize)], Serving (mkService Initialized []))) as E1.
  { rewrite serve_all_app, E0. reflexivity. }
  split; auto. split; auto. split; [discriminate|]. split; auto. split; auto.
  intros ms out' s' d' j Hs Hx. rewrite serve_all_app, E1 in Hs.
  destruct (serve_all (mkService Initialized []) ms) as [o2 [s2|h]] eqn:E2; [|discriminate]. injection Hs as _ ->.
  assert (life_of s' <> Uninitialized) as Hu.
  { clear - E2. assert (life_of (mkService Initialized []) <> Uninitialized) as Hi by discriminate. revert Hi E2.
    generalize (mkService Initialized []). revert o2. induction ms as [|[d0 m] ms IH]; intros o2 s Hi E; cbn [Serve.serve_all] in E.
    - injection E as _ <-. auto.
    - destruct (serve s d0 m) as [o [s1|h]] eqn:E1; [|discriminate].
      destruct (serve_all s1 ms) as [o3 f] eqn:E3. injection E as _ ->. eapply IH; [|eassumption].
      unfold Serve.serve in E1. destruct (life_of s) eqn:El; [congruence| | |].
      + destruct m as [id []|[]]; simpl in E1; try (injection E1 as _ <-; simpl; congruence).
        * destruct (answer d0 (texts s) uri) as [logs [r|x|p|]]; try discriminate. injection E1 as _ <-. congruence.
        * destruct text; [injection E1 as _ <-; simpl; congruence|]. destruct (read_file _ _); [injection E1 as _ <-; simpl; congruence|discriminate].
        * destruct changes; injection E1 as _ <-; simpl; congruence.
      + destruct m as [id []|[]]; simpl in E1; injection E1 as _ <-; simpl; congruence.
      + injection E1 as _ <-. congruence. }
  eexists. split; [|unfold Serve.serve; destruct (life_of s') eqn:El; try congruence; reflexivity].
  repeat eexists. auto.
Qed.

(** ** The server has the texts the editor shows *)
Lemma mirror es ms : edited es ms -> forall s0 out s, life_of s0 = Initialized -> serve_all s0 ms = (out, Serving s) ->
  life_of s = Initialized /\ forall u t, shown u es = Some t -> doc_lookup u (texts s) = Some t.
Proof.
  induction 1 as [|es ms e d m He IH Ht|es ms d m He IH Ha]; intros s0 out s Hl Hs.
  - injection Hs as <- <-. split; auto. discriminate.
  - rewrite serve_all_app in Hs. destruct (serve_all s0 ms) as [o1 [s1|h]] eqn:E1; [|discriminate].
    destruct (IH _ _ _ Hl E1) as [Hl1 Hm]. cbn [Serve.serve_all] in Hs. unfold Serve.serve in Hs. rewrite Hl1 in Hs.
    assert (forall u, shown u (es ++ [e]) = after u (shown u es) e) as Hsh
      by (intros u; unfold shown; rewrite fold_left_app; auto).
    inversion Ht; subst; cbn [serve_normal] in Hs.
    + injection Hs as _ <-. split; auto. intros v t Hv. rewrite Hsh in Hv. cbn [after texts] in *. rewrite doc_lookup_sync.
      destruct (String.eqb u v); auto.
    + injection Hs as _ <-. split; auto. intros v t Hv. rewrite Hsh in Hv. cbn [after texts] in *. rewrite doc_lookup_sync.
      destruct (String.eqb u v); auto.
    + injection Hs as _ <-. split; auto. intros v t Hv. rewrite Hsh in Hv. cbn [after texts] in *. rewrite doc_lookup_sync.
      destruct (String.eqb_spec u v) as [->|]; auto. congruence.
    + match goal with X : read_file _ _ = _ |- _ => rewrite X in Hs end.
      injection Hs as _ <-. split; auto. intros v t Hv. rewrite Hsh in Hv. cbn [after texts] in *. rewrite doc_lookup_sync.
      destruct (String.eqb_spec u v) as [->|]; auto. congruence.
    + injection Hs as _ <-. split; auto. intros v t Hv. rewrite Hsh in Hv. simpl in Hv.
      destruct (String.eqb u v); auto. discriminate.
    + destruct (answer d (texts s1) u) as [logs [r|x|p|]]; try discriminate. injection Hs as _ <-. split; auto.
      intros v t Hv. rewrite Hsh in Hv. auto.
  - rewrite serve_all_app in Hs. destruct (serve_all s0 ms) as [o1 [s1|h]] eqn:E1; [|discriminate].
    destruct (IH _ _ _ Hl E1) as [Hl1 Hm]. cbn [Serve.serve_all] in Hs. unfold Serve.serve in Hs. rewrite Hl1 in Hs.
    assert (s = s1) as ->; auto.
    destruct m as [id []|[]]; simpl in *; try tauto; injection Hs as _ <-; auto.
Qed.

Lemma never_sent_absent u es ms : edited es ms -> Forall (fun e => concerns e <> u) es ->
  forall s0 out s, life_of s0 = Initialized -> doc_lookup u (texts s0) = None -> serve_all s0 ms = (out, Serving s) ->
  doc_lookup u (texts s) = None.
Proof.
  induction 1 as [|es ms e d m He IH Ht|es ms d m He IH Ha]; intros Hf s0 out s Hl H0 Hs.
  - injection Hs as <- <-. auto.
  - rewrite serve_all_app in Hs. destruct (serve_all s0 ms) as [o1 [s1|h]] eqn:E1; [|discriminate].
    destruct (mirror _ _ He _ _ _ Hl E1) as [Hl1 _]. apply Forall_app in Hf as [Hf Hn]. inversion Hn as [|x y Hn' _ E]; subst.
    specialize (IH Hf _ _ _ Hl H0 E1). cbn [Serve.serve_all] in Hs. unfold Serve.serve in Hs. rewrite Hl1 in Hs.
    apply String.eqb_neq in Hn'.
    inversion Ht; subst; cbn [serve_normal] in Hs; cbn [concerns] in Hn'.
    + injection Hs as _ <-. cbn [texts]. rewrite doc_lookup_sync, Hn'. auto.
    + injection Hs as _ <-. cbn [texts]. rewrite doc_lookup_sync, Hn'. auto.
    + injection Hs as _ <-. cbn [texts]. rewrite doc_lookup_sync, Hn'. auto.
    + match goal with X : read_file _ _ = _ |- _ => rewrite X in Hs end.
      injection Hs as _ <-. cbn [texts]. rewrite doc_lookup_sync, Hn'. auto.
    + injection Hs as _ <-. auto.
    + destruct (answer d (texts s1) u0) as [logs [r|x|p|]]; try discriminate. injection Hs as _ <-. auto.
  - rewrite serve_all_app in Hs. destruct (serve_all s0 ms) as [o1 [s1|h]] eqn:E1; [|discriminate].
    destruct (mirror _ _ He _ _ _ Hl E1) as [Hl1 _]. specialize (IH Hf _ _ _ Hl H0 E1).
    cbn [Serve.serve_all] in Hs. unfold Serve.serve in Hs. rewrite Hl1 in Hs.
    assert (s = s1) as ->; auto. destruct m as [id []|[]]; simpl in *; try tauto; injection Hs as _ <-; auto.
Qed.
(** A document the editor has not mentioned is refused by name. *)
Theorem C77_not_sent : forall before d0 i es ms d id u out s, Forall (fun dm => idle (snd dm)) before -> edited es ms ->
  Forall (fun e => concerns e <> u) es -> serve_all new_service (before ++ (d0, Request i RInitialize) :: ms) = (out, Serving s) ->
  serve_all new_service (before ++ (d0, Request i RInitialize) :: ms ++ [(d, Request id (RDiagnose u))])
  = (out ++ [Respond id (Failure (-32602) (u ++ " is not synced") None)]%string, Serving s).
Proof.
  intros before d0 i es ms d id u out s Hb He Hf Hs.
  destruct (C77_before_handshake _ Hb) as (o0 & E0 & _).
  change (before ++ (d0, Request i RInitialize) :: ms ++ [(d, Request id (RDiagnose u))])
    with (before ++ ((d0, Request i RInitialize) :: ms) ++ [(d, Request id (RDiagnose u))]).
  rewrite app_assoc, serve_all_app, Hs.
  rewrite serve_all_app, E0 in Hs. cbn [Serve.serve_all] in Hs. unfold Serve.serve at 1 in Hs. cbn [life_of new_service] in Hs.
  destruct (serve_all (mkService Initialized (texts new_service)) ms) as [o1 [s1|h]] eqn:E1; [|discriminate].
  injection Hs as _ ->.
  pose proof (mirror _ _ He (mkService Initialized (texts new_service)) _ _ eq_refl E1) as [Hl _].
  pose proof (never_sent_absent _ _ _ He Hf (mkService Initialized (texts new_service)) _ _ eq_refl eq_refl E1) as Hn.
  cbn [Serve.serve_all]. unfold Serve.serve. rewrite Hl. cbn [serve_normal]. unfold Serve.answer. rewrite Hn. reflexivity.
Qed.

Lemma answer_one d ds u t : doc_lookup u ds = Some t -> answer d ds u = answer d [(u, t)] u.
Proof. intros E. unfold Serve.answer. rewrite E. simpl. rewrite String.eqb_refl. auto. Qed.
Lemma search_dir d paths o : search d paths = Ok o -> exists seen unseen dir, paths = seen ++ unseen
  /\ Forall2 (fun p e => fst e = known_extension p /\ (fst e = true -> read_file d p = Some (snd e))) seen dir
  /\ (unseen = [] \/ exists before dom, dir = before ++ [(true, dom)] /\ classify dom = Some VDomain)
  /\ find_domain dir = Ok o.
Proof.
  induction paths as [|p paths IH]; cbn [search]; intros E.
  - injection E as <-. exists [], [], []. auto.
  - destruct (known_extension p) eqn:Ek.
    + destruct (read_file d p) as [c|] eqn:Er; [|discriminate]. destruct (classify c) as [[| |]|] eqn:Ec; try discriminate.
      * injection E as <-. exists [p], paths, [(true, c)]. split; auto. split; [repeat constructor; auto|].
        split; [right; exists [], c; auto|]. simpl. rewrite Ec. auto.
      * destruct (IH E) as (seen & unseen & dir & -> & Hf & Hu & Hd). exists (p :: seen), unseen, ((true, c) :: dir).
        split; auto. split; [constructor; auto|]. split.
        -- destruct Hu as [->|(b & dom & -> & Hc)]; auto. right. exists ((true, c) :: b), dom. auto.
        -- simpl. rewrite Ec. auto.
      * destruct (IH E) as (seen & unseen & dir & -> & Hf & Hu & Hd). exists (p :: seen), unseen, ((true, c) :: dir).
        split; auto. split; [constructor; auto|]. split.
        -- destruct Hu as [->|(b & dom & -> & Hc)]; auto. right. exists ((true, c) :: b), dom. auto.
        -- simpl. rewrite Ec. auto.
    + destruct (IH E) as (seen & unseen & dir & -> & Hf & Hu & Hd). exists (p :: seen), unseen, ((false, "") :: dir).
      split; auto. split; [constructor; auto; split; auto; discriminate|]. split.
      * destruct Hu as [->|(b & dom & -> & Hc)]; auto. right. exists ((false, "") :: b), dom. auto.
      * auto.
Qed.

(** What is logged and what is reported for a document with text [t]. *)
Lemma answer_says d u t logs r : answer d [(u, t)] u = (logs, Ok r) -> exists dir l text,
  r = Report l /\ diagnose he fuel [(u, t)] u dir = Ok (Report l) /\ logs = ["Diagnostic Request Recieved."; text]
  /\ (classify t = Some VDomain -> text = u ++ " is a domain. Attempting to diagnose.")%string
  /\ (classify t = Some VMaybeNotHDDL -> text = u ++ " does not have proper HDDL header. Ignoring diagnostic request.")%string
  /\ (classify t = Some VProblem -> in_folder d u dir
      /\ exists path folder, to_file_path u = Some path /\ parent path = Some folder
         /\ (find_domain dir = Ok None /\ text = "Could not find the domain in " ++ folder
             \/ exists dom, find_domain dir = Ok (Some dom) /\ text = folder ++ " is the domain for " ++ u ++ ". Attempting to diagnose.")%string).
Proof.
  unfold Serve.answer, diagnose. simpl. rewrite String.eqb_refl.
  destruct (to_file_path u) as [path|] eqn:Ef; [|discriminate].
  destruct (classify t) as [[| |]|] eqn:Ec; [| | |discriminate].
  - intros E. injection E as <- E. unfold reported in E. destruct (diagnose_domain he fuel t) as [l|x|p|]; try discriminate. injection E as <-.
    exists [], l. eexists. split; auto. split; auto. split; auto. split; auto. split; discriminate.
  - destruct (parent path) as [folder|] eqn:Ep; [|discriminate]. destruct (read_dir d folder) as [paths|] eqn:Er; [|discriminate].
    destruct (search d paths) as [o|x|p|] eqn:Es; try discriminate.
    destruct (search_dir _ _ _ Es) as (seen & unseen & dir & -> & Hf & Hu & Hd).
    assert (in_folder d u dir) as Hin by (exists path, folder, seen, unseen; auto 6).
    destruct o as [dom|]; destruct (utf8_ok folder); try discriminate; intros E; injection E as <- E; unfold reported in E.
    + destruct (diagnose_problem he fuel (Some dom) t) as [l|x|p|] eqn:Edi; try discriminate. injection E as <-.
      exists dir, l. eexists. split; auto. split; [rewrite Hd; cbn [obind]; rewrite Edi; auto|]. split; auto.
      split; [discriminate|]. split; [discriminate|]. intros _. split; auto. exists path, folder. split; auto. split; auto. right. eauto.
    + destruct (diagnose_problem he fuel None t) as [l|x|p|] eqn:Edi; try discriminate. injection E as <-.
      exists dir, l. eexists. split; auto. split; [rewrite Hd; cbn [obind]; rewrite Edi; auto|]. split; auto.
      split; [discriminate|]. split; [discriminate|]. intros _. split; auto. exists path, folder. split; auto.
  - intros E. injection E as <- <-. exists [], []. eexists. split; auto. split; auto. split; auto. split; [discriminate|]. split; auto. discriminate.
Qed.

(** A document is checked as the editor shows it, whatever was sent before the
    handshake and whatever happened since. *)
Theorem C77_check : forall before d0 i es ms d id u t out s, Forall (fun dm => idle (snd dm)) before -> edited es ms ->
  shown u es = Some t ->
  serve_all new_service (before ++ (d0, Request i RInitialize) :: ms ++ [(d, Request id (RDiagnose u))]) = (out, Serving s) ->
  exists out' dir l text, out = out' ++ [LogMessage "Diagnostic Request Recieved."; LogMessage text; Respond id (Items l)]
    /\ diagnose he fuel [(u, t)] u dir = Ok (Report l)
    /\ (classify t = Some VDomain -> text = u ++ " is a domain. Attempting to diagnose.")%string
    /\ (classify t = Some VMaybeNotHDDL -> text = u ++ " does not have proper HDDL header. Ignoring diagnostic request.")%string
    /\ (classify t = Some VProblem -> in_folder d u dir
        /\ exists path folder, to_file_path u = Some path /\ parent path = Some folder
           /\ (find_domain dir = Ok None /\ text = "Could not find the domain in " ++ folder
               \/ exists dom, find_domain dir = Ok (Some dom) /\ text = folder ++ " is the domain for " ++ u ++ ". Attempting to diagnose.")%string).
Proof.
  intros before d0 i es ms d id u t out s Hb He Hsh Hs.
  destruct (C77_before_handshake _ Hb) as (o0 & E0 & _). rewrite serve_all_app, E0 in Hs.
  cbn [Serve.serve_all] in Hs. unfold Serve.serve at 1 in Hs. cbn [life_of new_service] in Hs. rewrite serve_all_app in Hs.
  destruct (serve_all (mkService Initialized (texts new_service)) ms) as [o1 [s1|h]] eqn:E1; [|discriminate].
  destruct (mirror _ _ He (mkService Initialized (texts new_service)) _ _ eq_refl E1) as [Hl Hm]. specialize (Hm _ _ Hsh).
  cbn [Serve.serve_all] in Hs. unfold Serve.serve in Hs. rewrite Hl in Hs. cbn [serve_normal] in Hs.
  rewrite (answer_one _ _ _ _ Hm) in Hs. destruct (answer d [(u, t)] u) as [logs [r|x|p|]] eqn:Ea; try discriminate.
  destruct (answer_says _ _ _ _ _ Ea) as (dir & l & text & -> & Hd & -> & H1 & H2 & H3).
  injection Hs as Ho Hs1. exists (o0 ++ Respond i (Capable initialize) :: o1), dir, l, text. split; auto.
  rewrite <- Ho, <- app_assoc. simpl. rewrite ?app_nil_r. auto.
Qed.
(** A domain is shown without errors exactly when verification accepts what the
    editor shows. *)
Theorem C77_green : forall before d0 i es ms d id u t out s, Forall (fun dm => idle (snd dm)) before -> edited es ms ->
  shown u es = Some t -> classify t = Some VDomain ->
  serve_all new_service (before ++ (d0, Request i RInitialize) :: ms ++ [(d, Request id (RDiagnose u))]) = (out, Serving s) ->
  ((exists out', out = out' ++ [Respond id (Items [])]) <-> exists ws, verify he fuel t None = Ok ws).
Proof.
  intros before d0 i es ms d id u t out s Hb He Hsh Hc Hs.
  destruct (C77_check _ _ _ _ _ _ _ _ _ _ _ Hb He Hsh Hs) as (out' & dir & l & text & -> & Hd & _).
  destruct (C31_domain_request he Hhe fuel [(u, t)] u t dir) as [Hg _]; auto.
  { simpl. rewrite String.eqb_refl. auto. }
  rewrite <- Hg, Hd. split.
  - intros [o E]. change [LogMessage "Diagnostic Request Recieved."; LogMessage text; Respond id (Items l)]
      with ([LogMessage "Diagnostic Request Recieved."; LogMessage text] ++ [Respond id (Items l)]) in E.
    rewrite app_assoc in E. apply app_inj_tail in E as [_ E]. congruence.
  - intros E. injection E as ->. exists (out' ++ [LogMessage "Diagnostic Request Recieved."; LogMessage text]). rewrite <- app_assoc. auto.
Qed.

(** Notifications without a handler, closing a document among them, might as
    well not be sent. *)
Theorem C77_close_ignored : forall s ms d x u ms',
  serve_all s (ms ++ (d, Notify (NOther x u)) :: ms') = serve_all s (ms ++ ms').
Proof.
  intros s ms d x u ms'. rewrite !serve_all_app. destruct (serve_all s ms) as [o [s1|h]]; auto.
  cbn [Serve.serve_all]. assert (serve s1 d (Notify (NOther x u)) = ([], Serving s1)) as ->.
  { unfold Serve.serve. destruct (life_of s1); auto. }
  destruct (serve_all s1 ms'). auto.
Qed.

(** ** The handlers of the concurrent server, run alone *)
Section Alone.
Variable limit : nat.
Hypothesis Hlimit : 0 < limit.
Variable d : disk.
Variable ds : documents.
Variable u : string.
Notation steps := (Conc.steps he fuel limit).
Let st p := mkServer ds [(MDiagnose u, p)] [] [] Running d.
Definition comes_to (o : outcome reply) (s : server) : Prop :=
  match o with
  | Ok r => state s = Running /\ sent s = [(0, Some r)] /\ docs s = ds
  | Panic p => state s = Crashed p
  | _ => state s = Hung
  end.
Lemma step1 p s o : act he fuel limit (st p) (LPoll 0) = Some s ->
  (exists k s', steps s (repeat (LPoll 0) k) = Some s' /\ comes_to o s') ->
  exists k s', steps (st p) (repeat (LPoll 0) k) = Some s' /\ comes_to o s'.
Proof. intros E (k & s' & Hk & Ho). exists (S k), s'. split; auto. cbn [repeat Conc.steps]. rewrite E. auto. Qed.
Lemma step0 s o : comes_to o s -> exists k s', steps s (repeat (LPoll 0) k) = Some s' /\ comes_to o s'.
Proof. intros Ho. exists 0, s. auto. Qed.
Lemma concluded p o : act he fuel limit (st p) (LPoll 0) = Some (conclude (st p) 0 o) ->
  exists k s', steps (st p) (repeat (LPoll 0) k) = Some s' /\ comes_to (reported o) s'.
Proof.
  intros E. eapply step1; eauto. apply step0. destruct o as [l|e|q|]; simpl; auto.
Qed.
Lemma alone_scan t path folder paths : doc_lookup u ds = Some t -> to_file_path u = Some path -> parent path = Some folder ->
  exists k s', steps (st (Scan paths)) (repeat (LPoll 0) k) = Some s'
    /\ comes_to (match search d paths with
       | Ok o => if utf8_ok folder then reported (diagnose_problem he fuel o t) else Panic PanicUnwrap
       | Panic p => Panic p
       | _ => OutOfFuel
       end) s'.
Proof.
  intros Ht Hp Hf. assert (folder_printable u = utf8_ok folder) as Hpr by (unfold folder_printable; rewrite Hp, Hf; auto).
  induction paths as [|p paths IH]; cbn [search].
  - destruct (utf8_ok folder) eqn:Eu.
    + eapply step1; [unfold act, Conc.poll; simpl; rewrite Hpr; reflexivity|].
      apply concluded. unfold act, Conc.poll. simpl. rewrite Ht. auto.
    + eapply step1; [unfold act, Conc.poll; simpl; rewrite Hpr; reflexivity|]. apply step0. reflexivity.
  - destruct (known_extension p) eqn:Ek.
    + eapply step1; [unfold act, Conc.poll; simpl; rewrite Ek; reflexivity|]. fold (st (ReadFile p paths)).
      destruct (read_file d p) as [c|] eqn:Er.
      * destruct (classify c) as [[| |]|] eqn:Ec.
        -- destruct (utf8_ok folder) eqn:Eu.
           ++ eapply step1; [unfold act, Conc.poll; simpl; rewrite Er, Ec, Hpr; reflexivity|].
              apply concluded. unfold act, Conc.poll. simpl. rewrite Ht. auto.
           ++ eapply step1; [unfold act, Conc.poll; simpl; rewrite Er, Ec, Hpr; reflexivity|]. apply step0. reflexivity.
        -- eapply step1; [unfold act, Conc.poll; simpl; rewrite Er, Ec; reflexivity|]. exact IH.
        -- eapply step1; [unfold act, Conc.poll; simpl; rewrite Er, Ec; reflexivity|]. exact IH.
        -- eapply step1; [unfold act, Conc.poll; simpl; rewrite Er, Ec; reflexivity|]. apply step0. reflexivity.
      * eapply step1; [unfold act, Conc.poll; simpl; rewrite Er; reflexivity|]. apply step0. reflexivity.
    + eapply step1; [unfold act, Conc.poll; simpl; rewrite Ek; reflexivity|]. exact IH.
Qed.
Theorem C77_alone : exists k s, steps (mkServer ds [(MDiagnose u, Fresh)] [] [] Running d) (repeat (LPoll 0) k) = Some s
  /\ comes_to (snd (answer d ds u)) s.
Proof.
  fold (st Fresh).
  eapply step1.
  { unfold act, Conc.poll, active. simpl. apply Nat.ltb_lt in Hlimit. rewrite Hlimit. reflexivity. }
  unfold wait. simpl.
  assert (forall s o, act he fuel limit (mkServer ds [(MDiagnose u, WaitRead)] [0] [] Running d) (LPoll 0) = Some s ->
    (exists k s', steps s (repeat (LPoll 0) k) = Some s' /\ comes_to o s') ->
    exists k s', steps (mkServer ds [(MDiagnose u, WaitRead)] [0] [] Running d) (repeat (LPoll 0) k) = Some s' /\ comes_to o s') as Hst.
  { intros s o E (k & s' & Hk & Ho). exists (S k), s'. split; auto. cbn [repeat Conc.steps]. rewrite E. auto. }
  unfold Serve.answer. destruct (doc_lookup u ds) as [t|] eqn:Et.
  2:{ eapply Hst; [unfold act, Conc.poll; simpl; rewrite Et; reflexivity|]. apply step0. simpl. auto. }
  eapply Hst; [unfold act, Conc.poll; simpl; rewrite Et; reflexivity|]. unfold goto, leave. simpl. fold (st Received).
  destruct (to_file_path u) as [path|] eqn:Ef.
  2:{ eapply step1; [unfold act, Conc.poll; simpl; rewrite Ef; reflexivity|]. apply step0. reflexivity. }
  destruct (classify t) as [[| |]|] eqn:Ec.
  - eapply step1; [unfold act, Conc.poll; simpl; rewrite Ef, Et, Ec; reflexivity|].
    apply concluded. unfold act, Conc.poll. simpl. rewrite Et. auto.
  - destruct (parent path) as [folder|] eqn:Ep.
    2:{ eapply step1; [unfold act, Conc.poll; simpl; rewrite Ef, Et, Ec, Ep; reflexivity|]. apply step0. reflexivity. }
    eapply step1; [unfold act, Conc.poll; simpl; rewrite Ef, Et, Ec, Ep; reflexivity|]. fold (st (OpenDir folder)).
    destruct (read_dir d folder) as [paths|] eqn:Er.
    2:{ eapply step1; [unfold act, Conc.poll; simpl; rewrite Er; reflexivity|]. apply step0. reflexivity. }
    eapply step1; [unfold act, Conc.poll; simpl; rewrite Er; reflexivity|]. fold (st (Scan paths)).
    destruct (alone_scan t path folder paths Et Ef Ep) as (k & s & Hk & Ho). exists k, s. split; auto.
    destruct (search d paths) as [[dom|]|x|p|]; auto; destruct (utf8_ok folder); auto.
  - eapply step1; [unfold act, Conc.poll; simpl; rewrite Ef, Et, Ec; reflexivity|].
    eapply step1; [unfold act, Conc.poll; simpl; reflexivity|]. apply step0. simpl. auto.
  - eapply step1; [unfold act, Conc.poll; simpl; rewrite Ef, Et, Ec; reflexivity|]. apply step0. reflexivity.
Qed.
End Alone.
End Props.

(** ** A concrete session *)
Definition url1 : string := "file:///w/domain.hddl".
Definition edits1 : list edit := [EOpen url1 bad_effect; ECheck url1; EEdit url1 dom1; ESave url1; ECheck url1].
Definition messages1 : list (disk * incoming) :=
  map (pair folder1)
  [Notify NInitialized; Notify (NOpen url1 bad_effect); Request 2 (RDiagnose url1); Notify (NChange url1 [dom1]);
   Request 3 (RKnown "textDocument/hover"); Notify (NSave url1 None); Request 4 (RDiagnose url1)].
Definition before1 : list (disk * incoming) :=
  map (pair folder1) [Notify (NOpen url1 dom1); Request 0 (RDiagnose url1); Request 1 RShutdown].
Example C77_example :
  Forall (fun dm => idle (snd dm)) before1 /\ edited edits1 messages1 /\ shown url1 edits1 = Some dom1
  /\ @classify uni0 dom1 = Some VDomain
  /\ exists bad s, @serve_all uni0 env_id 300 new_service
       (before1 ++ (folder1, Request 7 RInitialize) :: messages1 ++ [(folder1, Request 5 (RDiagnose url1))])
     = ([Respond 0 not_initialized; Respond 1 not_initialized; Respond 7 (Capable initialize);
         LogMessage "Diagnostic Request Recieved."; LogMessage (url1 ++ " is a domain. Attempting to diagnose.")%string; Respond 2 (Items [bad]);
         Respond 3 (method_not_found None);
         LogMessage "Diagnostic Request Recieved."; LogMessage (url1 ++ " is a domain. Attempting to diagnose.")%string; Respond 4 (Items []);
         LogMessage "Diagnostic Request Recieved."; LogMessage (url1 ++ " is a domain. Attempting to diagnose.")%string; Respond 5 (Items [])],
        Serving s) /\ life_of s = Initialized.
Proof.
  split; [repeat constructor|]. split.
  { unfold edits1, messages1. cbn [map].
    change [EOpen url1 bad_effect; ECheck url1; EEdit url1 dom1; ESave url1; ECheck url1]
      with ((((([] ++ [EOpen url1 bad_effect]) ++ [ECheck url1]) ++ [EEdit url1 dom1]) ++ [ESave url1]) ++ [ECheck url1]).
    change [(folder1, Notify NInitialized); (folder1, Notify (NOpen url1 bad_effect)); (folder1, Request 2 (RDiagnose url1));
            (folder1, Notify (NChange url1 [dom1])); (folder1, Request 3 (RKnown "textDocument/hover"));
            (folder1, Notify (NSave url1 None)); (folder1, Request 4 (RDiagnose url1))]
      with ((((((([] ++ [(folder1, Notify NInitialized)]) ++ [(folder1, Notify (NOpen url1 bad_effect))]) ++ [(folder1, Request 2 (RDiagnose url1))])
            ++ [(folder1, Notify (NChange url1 [dom1]))]) ++ [(folder1, Request 3 (RKnown "textDocument/hover"))])
            ++ [(folder1, Notify (NSave url1 None))]) ++ [(folder1, Request 4 (RDiagnose url1))]).
    apply ed_edit; [|constructor]. apply ed_edit; [|eapply tl_save with (text := dom1); vm_compute; reflexivity].
    apply ed_other; [|exact I]. apply ed_edit; [|constructor]. apply ed_edit; [|constructor]. apply ed_edit; [|constructor].
    apply ed_other; [|exact I]. constructor. }
  split; [vm_compute; reflexivity|]. split; [vm_compute; reflexivity|].
  eexists _, _. split; [vm_compute; reflexivity|]. reflexivity.
Qed.
(** A closed document is still diagnosed, from its last text. *)
Theorem C77_closed_refuted : exists es ms u, edited es ms /\ shown u es = None
  /\ exists out s l, @serve_all uni0 env_id 300 new_service
       ((folder1, Request 1 RInitialize) :: ms ++ [(folder1, Request 2 (RDiagnose u))]) = (out, Serving s)
     /\ In (Respond 2 (Items l)) out.
Proof.
  exists ([] ++ [EOpen url1 dom1] ++ [EClose url1]),
    ([(folder1, Notify (NOpen url1 dom1))] ++ [(folder1, Notify (NOther "textDocument/didClose" url1))]), url1.
  split.
  { change ([] ++ [EOpen url1 dom1] ++ [EClose url1]) with (([] ++ [EOpen url1 dom1]) ++ [EClose url1]).
    apply ed_edit; [|constructor]. change [(folder1, Notify (NOpen url1 dom1))] with ([] ++ [(folder1, Notify (NOpen url1 dom1))]).
    apply ed_edit; constructor. }
  split; [vm_compute; reflexivity|]. eexists _, _, []. split; [vm_compute; reflexivity|].
  right. right. right. left. reflexivity.
Qed.

Definition serve_theorems := (@C77_one_response, @C77_no_other_response, @C77_before_handshake, @C77_after_shutdown, @C77_after_exit, @C77_handshake, @C77_not_sent,
  @C77_check, @C77_green, @C77_close_ignored, @C77_alone, @C77_closed_refuted).
