(** Property theorems about the language server, the JSON export and the
    command line: C31-C34, C41.  Specifications: SpecIo.v. *)
From Coq Require Import String Ascii NArith ZArith Bool List Lia Permutation.
From Verif Require Import Base Token Lexer Errors Ast AstLines Parser Graph Semantic Tdg Api Json Lsp Cli StrFacts
  SpecLex ParserProofs PropsLex PropsParse SpecSem VerifyTop PropsSem SpecIo JsonProofs IoProofs.
Import ListNotations.
Open Scope list_scope.

Section Server.
Context `{Unicode}.
Variable he : hash_env.
Hypothesis Hhe : hash_env_ok he.

Lemma error_lines_positive n dom prob e : verify he n dom prob = Err e -> Forall at_least_1 (err_lines e).
Proof.
  intros E. destruct (C13_verification_error_lines he Hhe _ _ _ _ E) as [Hl|(s & _ & Hl)];
    eapply Forall_impl; [|eassumption| |eassumption]; unfold in_doc, at_least_1; intros; lia.
Qed.
Lemma parse_lines_positive n s e : parse n s = Err e -> Forall at_least_1 (err_lines e).
Proof.
  intros E. apply C13_error_lines in E as [_ E]. eapply Forall_impl; [|exact E]. unfold at_least_1; simpl; intros; lia.
Qed.

(** ** C31 *)
(** What the server answers for a domain document, for every result of
    verifying it. *)
Theorem C31_domain_agrees : forall n s,
  classify s = Some VDomain ->
  match verify he n s None with
  | Ok _ => diagnose_domain he n s = Ok []
  | Err e =>
    (two_places e /\ diagnose_domain he n s = Panic PanicUrl)
    \/ (~ two_places e /\ exists d, diagnose_domain he n s = Ok [d] /\ shows e d)
  | Panic p => diagnose_domain he n s = Panic p
  | OutOfFuel => diagnose_domain he n s = OutOfFuel
  end.
Proof.
  intros n s Hc. pose proof (error_lines_positive n s None) as Hpos. pose proof (C30_domain_errors_display he Hhe n s) as Hdis.
  unfold verify, parse_as_domain, diagnose_domain in *.
  destruct (parse n s) as [[d|p]|e|p|] eqn:Ep; cbn [obind] in *; auto.
  - destruct (verify_domain he n d) as [tb|e|p|] eqn:Ev; cbn [obind report fst snd] in *; rewrite ?Ev; auto.
    destruct (to_diagnostic_cases e) as [[H1 H2]|[[H1 (dg & H2 & H3)]|[_ [H1 _]]]]; auto.
    + left. split; auto. cbn [report]. rewrite H2. auto.
    + right. split; auto. exists dg. cbn [report]. rewrite H2. simpl. auto.
    + destruct (Hdis e) as [t Et]; auto. congruence.
  - apply parse_classified in Ep. congruence.
  - destruct (to_diagnostic_cases e) as [[H1 H2]|[[H1 (dg & H2 & H3)]|[_ [H1 _]]]]; auto.
    + left. split; auto. simpl. rewrite H2. auto.
    + right. split; auto. exists dg. simpl. rewrite H2. auto.
    + destruct (Hdis e) as [t Et]; auto. congruence.
Qed.

Theorem C31_domain_clean_iff : forall n s,
  classify s = Some VDomain ->
  (diagnose_domain he n s = Ok [] <-> exists ws, verify he n s None = Ok ws).
Proof.
  intros n s Hc. pose proof (C31_domain_agrees n s Hc) as Ha. split.
  - intros E. rewrite E in Ha. destruct (verify he n s None) as [ws|e|p|]; try discriminate; eauto.
    destruct Ha as [[_ Ha]|[_ (d & Ha & _)]]; discriminate.
  - intros (ws & E). rewrite E in Ha. auto.
Qed.

(** Every diagnostic of a domain document is about a line of that document. *)
Theorem C31_domain_lines : forall n s ds d,
  classify s = Some VDomain -> diagnose_domain he n s = Ok ds -> In d ds ->
  (dg_start d <= count_nl s)%N.
Proof.
  intros n s ds d Hc E Hi. pose proof (C31_domain_agrees n s Hc) as Ha. rewrite E in Ha.
  destruct (verify he n s None) as [ws|e|p|] eqn:Ev; try discriminate.
  - injection Ha as ->. destruct Hi.
  - destruct Ha as [[_ Ha]|[_ (d' & Ha & Hs)]]; [discriminate|]. injection Ha as ->. destruct Hi as [<-|[]].
    apply C13_verification_error_lines in Ev as [Hl|(? & E' & _)]; [|discriminate|auto].
    destruct Hs as (_ & Hs & _). destruct (err_lines e) as [|l [|]]; try lia.
    inversion Hl; subst. unfold in_doc in *. lia.
Qed.

(** A problem document whose domain is valid. *)
Theorem C31_problem_agrees : forall n dom s ws,
  classify s = Some VProblem -> verify he n dom None = Ok ws ->
  match verify he n dom (Some s) with
  | Ok _ => diagnose_problem he n (Some dom) s = Ok []
  | Err e =>
    (two_places e /\ diagnose_problem he n (Some dom) s = Panic PanicUrl)
    \/ (~ two_places e /\ exists d, diagnose_problem he n (Some dom) s = Ok [d] /\ shows e d)
    \/ (show_parsing_error e = None /\ diagnose_problem he n (Some dom) s = Panic PanicUnreachable)
  | Panic p => diagnose_problem he n (Some dom) s = Panic p
  | OutOfFuel => diagnose_problem he n (Some dom) s = OutOfFuel
  end.
Proof.
  intros n dom s ws Hc Hd. pose proof (error_lines_positive n dom (Some s)) as Hpos.
  unfold verify, parse_as_domain, parse_as_problem, diagnose_problem in *.
  destruct (parse n dom) as [[d|p]|e|p|] eqn:Ep; cbn [obind report fst snd] in *; try discriminate.
  destruct (verify_domain he n d) as [tb|e|p|] eqn:Ev; cbn [obind report fst snd app] in *; try discriminate.
  destruct (parse n s) as [[d'|p]|e|p|] eqn:Es; cbn [obind report fst snd] in *; auto.
  - apply parse_classified in Es. congruence.
  - destruct (verify_problem tb p) as [ws'|e|q|] eqn:Evp; cbn [obind report fst snd]; auto.
    destruct (to_diagnostic_cases e) as [[H1 H2]|[[H1 (dg & H2 & H3)]|[_ [H1 H2]]]]; auto; rewrite H2; simpl; eauto.
    right. left. eauto.
  - destruct (to_diagnostic_cases e) as [[H1 H2]|[[H1 (dg & H2 & H3)]|[_ [H1 H2]]]]; auto; rewrite H2; simpl; eauto.
    right. left. eauto.
Qed.
Theorem C31_problem_clean_iff : forall n dom s ws,
  classify s = Some VProblem -> verify he n dom None = Ok ws ->
  (diagnose_problem he n (Some dom) s = Ok [] <-> exists ws', verify he n dom (Some s) = Ok ws').
Proof.
  intros n dom s ws Hc Hd. pose proof (C31_problem_agrees n dom s ws Hc Hd) as Ha. split.
  - intros E. rewrite E in Ha. destruct (verify he n dom (Some s)) as [ws'|e|p|]; try discriminate; eauto.
    destruct Ha as [[_ Ha]|[[_ (d & Ha & _)]|[_ Ha]]]; discriminate.
  - intros (ws' & E). rewrite E in Ha. auto.
Qed.

(** A problem document whose domain is broken: the error of the domain, then
    the syntax error of the problem, if any; the rest of the problem is not
    looked at. *)
Theorem C31_problem_broken_domain : forall n dom s e,
  classify dom = Some VDomain -> classify s = Some VProblem ->
  verify he n dom None = Err e -> ~ two_places e ->
  match parse n s with
  | Ok _ => exists d, diagnose_problem he n (Some dom) s = Ok [d] /\ shows e d
  | Err e' => exists d d', diagnose_problem he n (Some dom) s = Ok [d; d'] /\ shows e d /\ shows e' d'
  | _ => True
  end.
Proof.
  intros n dom s e Hcd Hcs Hv Ht. pose proof (error_lines_positive _ _ _ _ Hv) as Hpos.
  destruct (C30_domain_errors_display he Hhe _ _ _ Hv) as [t Hdis].
  destruct (to_diagnostic_cases e Hpos) as [[H1 H2]|[[_ (dg & H2 & H3)]|[_ [H1 H2]]]]; try congruence; try tauto.
  assert (match parse n s with
          | Ok _ => diagnose_problem he n (Some dom) s = Ok [dg]
          | Err e' => forall d', to_diagnostic e' = Ok d' -> diagnose_problem he n (Some dom) s = Ok [dg; d']
          | _ => True end) as Hd.
  { unfold verify, parse_as_domain, diagnose_problem in *.
    destruct (parse n dom) as [[d|p]|e0|p|] eqn:Ep; cbn [obind] in *; try discriminate.
    - destruct (verify_domain he n d) as [tb|e1|p|] eqn:Ev; cbn [obind report fst snd app] in *; try discriminate.
      injection Hv as ->. rewrite ?Ev. cbn [report]. rewrite H2. cbn [obind fst snd app].
      destruct (parse n s) as [[|]|e'| |]; auto. intros d' Ed. cbn [report]. rewrite Ed. auto.
    - injection Hv as ->. cbn [report]. rewrite H2. cbn [obind fst snd app].
      destruct (parse n s) as [[|]|e'| |]; auto. intros d' Ed. cbn [report]. rewrite Ed. auto. }
  destruct (parse n s) as [a|e'| |] eqn:Es; auto.
  - exists dg; auto.
  - destruct (to_diagnostic_cases e' (parse_lines_positive _ _ _ Es)) as [[H4 H5]|[[_ (dg' & H5 & H6)]|[_ [H4 H5]]]].
    + exfalso. destruct H4 as (l1 & l2 & H4). destruct e' as [| |x]; try discriminate. eapply parse_not_sem; eauto.
    + exists dg, dg'. auto.
    + exfalso. destruct e' as [| |x]; try discriminate. eapply parse_not_sem; eauto.
Qed.

(** No domain in the folder: only the syntax of the problem is checked. *)
Theorem C31_problem_without_domain : forall n s,
  match parse n s with
  | Ok _ => diagnose_problem he n None s = Ok []
  | Err e => exists d, diagnose_problem he n None s = Ok [d] /\ shows e d
  | Panic p => diagnose_problem he n None s = Panic p
  | OutOfFuel => diagnose_problem he n None s = OutOfFuel
  end.
Proof.
  intros n s. unfold diagnose_problem. destruct (parse n s) as [[|]|e| |] eqn:Es; auto. cbn [obind].
  destruct (to_diagnostic_cases e (parse_lines_positive _ _ _ Es)) as [[H4 H5]|[[_ (dg' & H5 & H6)]|[_ [H4 H5]]]].
  - exfalso. destruct H4 as (l1 & l2 & H4). destruct e as [| |x]; try discriminate. eapply parse_not_sem; eauto.
  - exists dg'. split; auto. cbn [report]. rewrite H5. auto.
  - exfalso. destruct e as [| |x]; try discriminate. eapply parse_not_sem; eauto.
Qed.

(** A document with a broken header gets an empty report although it is never
    accepted. *)
Theorem C31_broken_header_silent : forall ds uri s dir,
  doc_lookup uri ds = Some s -> classify s = Some VMaybeNotHDDL ->
  (forall n, diagnose he n ds uri dir = Ok (Report []))
  /\ exists e, forall n prob, verify he n s prob = Err e.
Proof.
  intros ds uri s dir Hl Hc. split.
  - intros n. unfold diagnose. rewrite Hl, Hc. auto.
  - apply parse_unclassified in Hc as (e & Hp). exists e. intros n prob. unfold verify, parse_as_domain. rewrite Hp. auto.
Qed.

(** ** C31 for requests: which documents are looked at. *)
(** [dom] is the first domain among the files of a folder with a known
    extension. *)
Definition first_domain (dir : list dir_entry) (dom : string) : Prop :=
  exists before after, dir = before ++ (true, dom) :: after /\ classify dom = Some VDomain
    /\ forall c, In (true, c) before -> exists v, classify c = Some v /\ v <> VDomain.
Definition no_domain (dir : list dir_entry) : Prop :=
  forall c, In (true, c) dir -> exists v, classify c = Some v /\ v <> VDomain.

Lemma find_first dir dom : first_domain dir dom -> find_domain dir = Ok (Some dom).
Proof.
  intros (b & a & -> & Hc & Hb). induction b as [|[[|] c] b IH]; simpl.
  - rewrite Hc. auto.
  - destruct (Hb c) as (v & Ev & Hv); [left; auto|]. rewrite Ev.
    destruct v; try congruence; apply IH; intros; apply Hb; right; auto.
  - apply IH. intros; apply Hb; right; auto.
Qed.
Lemma find_none dir : no_domain dir -> find_domain dir = Ok None.
Proof.
  induction dir as [|[[|] c] b IH]; simpl; intros Hb; auto.
  - destruct (Hb c) as (v & Ev & Hv); [left; auto|]. rewrite Ev.
    destruct v; try congruence; apply IH; intros x Hx; apply Hb; right; auto.
  - apply IH. intros x Hx; apply Hb; right; auto.
Qed.

Theorem C31_domain_request : forall n ds uri s dir,
  doc_lookup uri ds = Some s -> classify s = Some VDomain ->
  (diagnose he n ds uri dir = Ok (Report []) <-> exists ws, verify he n s None = Ok ws)
  /\ (forall e, verify he n s None = Err e -> ~ two_places e ->
        exists d, diagnose he n ds uri dir = Ok (Report [d]) /\ shows e d).
Proof.
  intros n ds uri s dir Hl Hc. unfold diagnose. rewrite Hl, Hc. split.
  - rewrite <- C31_domain_clean_iff by auto.
    destruct (diagnose_domain he n s) as [l|e|p|]; cbn [obind]; split; intros E; try discriminate; congruence.
  - intros e Ev Ht. pose proof (C31_domain_agrees n s Hc) as Ha. rewrite Ev in Ha.
    destruct Ha as [[Ha _]|[_ (d & -> & Hs)]]; [tauto|]. exists d. auto.
Qed.
Theorem C31_problem_request : forall n ds uri s dir dom ws,
  doc_lookup uri ds = Some s -> classify s = Some VProblem -> first_domain dir dom -> verify he n dom None = Ok ws ->
  (diagnose he n ds uri dir = Ok (Report []) <-> exists ws', verify he n dom (Some s) = Ok ws')
  /\ (forall e, verify he n dom (Some s) = Err e -> ~ two_places e -> (exists t, show_parsing_error e = Some t) ->
        exists d, diagnose he n ds uri dir = Ok (Report [d]) /\ shows e d).
Proof.
  intros n ds uri s dir dom ws Hl Hc Hf Hv. unfold diagnose. rewrite Hl, Hc, (find_first _ _ Hf). cbn [obind]. split.
  - rewrite <- (C31_problem_clean_iff n dom s ws) by auto.
    destruct (diagnose_problem he n (Some dom) s) as [l|e|p|]; cbn [obind]; split; intros E; try discriminate; congruence.
  - intros e Ev Ht (t & Hs). pose proof (C31_problem_agrees n dom s ws Hc Hv) as Ha. rewrite Ev in Ha.
    destruct Ha as [[Ha _]|[[_ (d & -> & Hd)]|[Ha _]]]; [tauto| |congruence]. exists d. auto.
Qed.
(** Without a domain in the folder only the syntax is checked. *)
Theorem C31_orphan_request : forall n ds uri s dir p,
  doc_lookup uri ds = Some s -> classify s = Some VProblem -> no_domain dir -> parse n s = Ok p ->
  diagnose he n ds uri dir = Ok (Report []).
Proof.
  intros n ds uri s dir p Hl Hc Hf Hp. unfold diagnose. rewrite Hl, Hc, (find_none _ Hf). cbn [obind].
  pose proof (C31_problem_without_domain n s) as Ha. rewrite Hp in Ha. rewrite Ha. auto.
Qed.

(** ** C32 *)
Theorem C32_latest_text : forall n es uri dir ds rs,
  session he n [] (es ++ [Diagnose uri dir]) = Ok (ds, rs) ->
  exists ds' rs' r, session he n [] es = Ok (ds', rs') /\ rs = rs' ++ [r]
    /\ (forall text, latest uri es text -> diagnose he n [(uri, text)] uri dir = Ok r)
    /\ (never_sent uri es -> r = InvalidParams uri).
Proof.
  intros n es uri dir ds rs E. rewrite session_app in E. apply bind_ok in E as ([ds' rs'] & Es & E).
  cbn [fst snd session handle] in E. apply bind_ok in E as ([ds2 rs2] & E2 & E).
  apply bind_ok in E2 as ([ds3 r3] & E3 & E2). apply bind_ok in E3 as (r & Ed & E3). injection E3 as <- <-.
  simpl in E2, E. injection E2 as <- <-. injection E as <- <-.
  exists ds', rs', r. split; auto. split; auto. pose proof (session_lookup he n uri es [] ds' rs' Es) as [H1 H2].
  unfold diagnose in *. split.
  - intros text Ht. rewrite (H1 _ Ht) in Ed. simpl. rewrite String.eqb_refl. auto.
  - intros Hn. rewrite (H2 Hn) in Ed. simpl in Ed. congruence.
Qed.

(** Histories that agree on one document give the same answer for it. *)
Theorem C32_other_documents_irrelevant : forall n es es' uri dir ds ds' rs rs',
  session he n [] es = Ok (ds, rs) -> session he n [] es' = Ok (ds', rs') ->
  (forall text, latest uri es text <-> latest uri es' text) ->
  diagnose he n ds uri dir = diagnose he n ds' uri dir.
Proof.
  intros n es es' uri dir ds ds' rs rs' E E' Hs. apply session_lookup with (uri := uri) in E as [H1 H2], E' as [H1' H2'].
  unfold diagnose. destruct (latest_or uri es) as [(t & Ht)|Hn].
  - rewrite (H1 _ Ht), (H1' t); auto. apply Hs; auto.
  - rewrite (H2 Hn), H2'; auto. destruct (latest_or uri es') as [(t & Ht)|]; auto.
    exfalso. apply Hs in Ht. eapply latest_not_never; eauto.
Qed.

(** Notifications never fail, except a save without text of a file that
    cannot be read. *)
Theorem C32_notifications_total : forall n es,
  Forall (fun e => match e with Diagnose _ _ => False | _ => True end) es ->
  ((exists ds, session he n [] es = Ok (ds, [])) <->
   Forall (fun e => match e with DidSave _ None None => False | _ => True end) es).
Proof.
  intros n es. assert (forall ds0, Forall (fun e => match e with Diagnose _ _ => False | _ => True end) es ->
  ((exists ds, session he n ds0 es = Ok (ds, [])) <->
   Forall (fun e => match e with DidSave _ None None => False | _ => True end) es)) as Hg; [|apply Hg].
  induction es as [|e es IH]; intros ds0 Hn.
  - simpl. split; [constructor|eauto].
  - inversion Hn as [|? ? He Hes]; subst. rewrite Forall_cons_iff.
    destruct (handle he n ds0 e) as [[ds1 r]|x|p|] eqn:Eh.
    + specialize (IH ds1 Hes). rewrite <- IH. simpl. rewrite Eh. simpl.
      assert (r = None) as -> by (destruct e as [u t|u [t|] [x|]|u [|t l]|u dir]; simpl in Eh, He; try tauto; congruence).
      destruct (session he n ds1 es) as [[ds2 rs]| | |]; simpl; split.
      * intros (ds & E). injection E as <- ->. split; [|eauto]. destruct e as [|? [|] []| |]; auto. discriminate.
      * intros [_ (ds & E)]. injection E as <- ->. eauto.
      * intros (ds & E). discriminate.
      * intros [_ (ds & E)]. discriminate.
      * intros (ds & E). discriminate.
      * intros [_ (ds & E)]. discriminate.
      * intros (ds & E). discriminate.
      * intros [_ (ds & E)]. discriminate.
    + destruct e as [|? [|] []|? []|]; simpl in Eh; try discriminate; tauto.
    + simpl. rewrite Eh. simpl. split; [intros (? & E); discriminate|].
      destruct e as [|? [|] []|? []|]; simpl in Eh; try discriminate; tauto.
    + destruct e as [|? [|] []|? []|]; simpl in Eh; try discriminate; tauto.
Qed.

(** Only the first change of a notification counts. *)
Theorem C32_first_change_only : forall n ds uri text others,
  handle he n ds (DidChange uri (text :: others)) = handle he n ds (DidChange uri [text]).
Proof. auto. Qed.

End Server.

(** ** C33 *)
Section Export.
Context `{Unicode} `{F : Floats}.
Hypothesis HF : floats_ok F.

Theorem C33_text_determines_trees : forall swap swap' n n' dom dom' prob prob' text,
  to_json swap n dom prob = Ok text -> to_json swap' n' dom' prob' = Ok text ->
  exists d d', parse n dom = Ok (ADomain d) /\ parse n' dom' = Ok (ADomain d')
    /\ domain_value d = domain_value d'
    /\ match prob, prob' with
       | None, None => True
       | Some s, Some s' => exists p p', parse n s = Ok (AProblem p) /\ parse n' s' = Ok (AProblem p')
                                         /\ problem_value p = problem_value p'
       | _, _ => False
       end.
Proof.
  assert (forall swap n dom prob j, json_value swap n dom prob = Ok j ->
    exists d, parse n dom = Ok (ADomain d) /\
      match prob with
      | None => j = JObj [("domain", j_domain d)]
      | Some s => exists p, parse n s = Ok (AProblem p)
          /\ j = JObj (if swap then [("problem", j_problem p); ("domain", j_domain d)]
                       else [("domain", j_domain d); ("problem", j_problem p)])
      end%string) as Hv.
  { intros swap n dom prob j E. unfold json_value, parse_as_domain, parse_as_problem in E.
    destruct (parse n dom) as [[d|p]|e|p|]; cbn [obind] in E; try discriminate. exists d. split; auto.
    destruct prob as [s|]; [|congruence]. destruct (parse n s) as [[|p]|e|p|]; cbn [obind] in E; try discriminate.
    exists p. split; auto. destruct swap; congruence. }
  intros swap swap' n n' dom dom' prob prob' text E E'. unfold to_json in E, E'.
  apply bind_ok in E as (j & Ej & E), E' as (j' & Ej' & E'). injection E as E. injection E' as E'.
  apply Hv in Ej as (d & Ed & Ej), Ej' as (d' & Ed' & Ej'). exists d, d'. split; auto. split; auto.
  assert (json_ok j /\ json_ok j') as [Hj Hj'].
  { split; [destruct prob as [s|]; [destruct Ej as (p & _ & ->); destruct swap|subst j]
           |destruct prob' as [s'|]; [destruct Ej' as (p & _ & ->); destruct swap'|subst j']];
      constructor; repeat (apply Forall_cons || apply Forall_nil); simpl; auto using ok_domain, ok_problem. }
  destruct (json_text_inj j 0 j' "" "") as [<- _]; auto; try exact I.
  { rewrite E, E'. auto. }
  clear Hj Hj' E E'. destruct prob as [s|], prob' as [s'|].
  - destruct Ej as (p & Ep & Ej), Ej' as (p' & Ep' & Ej'). rewrite Ej in Ej'.
    assert (j_domain d = j_domain d' /\ j_problem p = j_problem p') as [E1 E2].
    { destruct swap, swap'; try discriminate; apply obj_field in Ej' as [E1 Ej']; apply obj_field in Ej' as [E2 _]; auto. }
    split; [apply j_domain_inj; auto|]. exists p, p'. split; auto. split; auto. apply j_problem_inj; auto.
  - destruct Ej as (p & Ep & Ej). rewrite Ej in Ej'. destruct swap; discriminate.
  - destruct Ej' as (p & Ep & Ej'). rewrite Ej in Ej'. destruct swap'; discriminate.
  - rewrite Ej in Ej'. apply obj_field in Ej' as [E1 _]. split; auto. apply j_domain_inj; auto.
Qed.

(** ** C41 *)
Theorem C41_export_iff_parses : forall swap n dom prob,
  (exists text, to_json swap n dom prob = Ok text) <->
  (exists d, parse n dom = Ok (ADomain d))
  /\ (forall s, prob = Some s -> exists p, parse n s = Ok (AProblem p)).
Proof.
  intros swap n dom prob. unfold to_json, json_value, parse_as_domain, parse_as_problem.
  destruct (parse n dom) as [[d|p]|e|p|]; cbn [obind];
    try (split; [intros (t & E); discriminate|intros [(d' & E) _]; discriminate]).
  destruct prob as [s|]; cbn [obind].
  - destruct (parse n s) as [[d'|p]|e|p|] eqn:Es; cbn [obind];
      try (split; [intros (t & E); discriminate|intros [_ Hs]; destruct (Hs s eq_refl); congruence]).
    split; eauto. intros _. split; eauto. intros s' E. injection E as <-. eauto.
  - split; eauto. intros _. split; eauto. discriminate.
Qed.
(** The errors are those of the parser: first the domain's, then the
    problem's. *)
Theorem C41_export_error_iff : forall swap n dom prob e,
  to_json swap n dom prob = Err e <->
  parse n dom = Err e
  \/ (exists d s, parse n dom = Ok (ADomain d) /\ prob = Some s /\ parse n s = Err e).
Proof.
  intros swap n dom prob e. unfold to_json, json_value, parse_as_domain, parse_as_problem.
  destruct (parse n dom) as [[d|p]|e'|p|] eqn:Ed; cbn [obind];
    try (split; [discriminate|intros [E|(d' & s' & E & _)]; discriminate]).
  - destruct prob as [s|]; cbn [obind].
    + destruct (parse n s) as [[d'|p]|e'|p|] eqn:Es; cbn [obind]; split; try discriminate;
        try (intros [E|(d2 & s' & E & E2 & E3)]; [discriminate|]; congruence).
      intros E. right. exists d, s. split; auto. split; auto. congruence.
    + split; [discriminate|]. intros [E|(d' & s' & _ & E & _)]; discriminate.
  - split; [left; congruence|]. intros [E|(d' & s' & E & _)]; congruence.
Qed.
(** Whatever verification accepts can be exported. *)
Theorem C41_verified_exports : forall swap he n dom prob ws, hash_env_ok he ->
  verify he n dom prob = Ok ws -> exists text, to_json swap n dom prob = Ok text.
Proof.
  intros swap he n dom prob ws _ E. apply C41_export_iff_parses. unfold verify, parse_as_domain, parse_as_problem in E.
  destruct (parse n dom) as [[d|p]|e'|p|] eqn:Ed; cbn [obind] in E; try discriminate. split; [eauto|].
  intros s ->. apply bind_ok in E as (tb & _ & E). destruct (parse n s) as [[d'|p]|e'|p|]; try discriminate. eauto.
Qed.

(** ** C34 *)
Variable he : hash_env.
Variable swap : bool.

Theorem C34_status_zero : forall n ln c out status,
  main he swap n ln c = Exit out status -> status = 0%N.
Proof.
  assert (forall e out status, print_error e = Exit out status -> status = 0%N) as Hp.
  { intros e out status. unfold print_error. destruct (show_parsing_error e); congruence. }
  intros n ln c out status. unfold main, print_verification, print_json.
  destruct c as [[d|m] [[p|m']|]|[d|m]|[d|m] [[p|m']|] []];
    repeat match goal with |- context [match ?x with _ => _ end] => destruct x end; eauto; congruence.
Qed.

Lemma success_line_iff ws : In ok_line (map warning_line ws ++ [ok_line]).
Proof. apply in_app_iff. right; left; auto. Qed.
Lemma ok_not_error msg : error_line msg <> ok_line.
Proof. discriminate. Qed.

(** Success is printed exactly when verification succeeds; the output is then
    the warnings followed by the success line. *)
Theorem C34_verify_success_iff : forall n ln dom prob out status,
  main he swap n ln (CmdVerify (Content dom) (option_map Content prob)) = Exit out status ->
  (In (Stdout success_text) out <-> exists ws, verify he n dom prob = Ok ws)
  /\ (forall ws, verify he n dom prob = Ok ws -> out = map (fun w => Stdout (warning_text w)) ws ++ [Stdout success_text])
  /\ (forall e, verify he n dom prob = Err e ->
        exists text, show_parsing_error e = Some text /\ out = [Stderr (error_text text)]).
Proof.
  intros n ln dom prob out status E.
  assert (print_verification (verify he n dom prob) = Exit out status) as E' by (destruct prob; exact E). clear E.
  unfold print_verification, print_error in E'. destruct (verify he n dom prob) as [ws|e|p|]; try discriminate.
  - injection E' as <- <-. split; [split; eauto using success_line_iff|]. split; [intros ws' E; injection E as <-; reflexivity|discriminate].
  - destruct (show_parsing_error e) as [text|] eqn:Es; [|discriminate]. injection E' as <- <-. split; [|split; [discriminate|]].
    + split; [intros [E|[]]; discriminate|intros (ws & E); discriminate].
    + intros e' E. injection E as <-. eauto.
Qed.

(** The command crashes exactly when verification does or when its error
    cannot be displayed. *)
Theorem C34_verify_crash_iff : forall n ln dom prob,
  main he swap n ln (CmdVerify (Content dom) (option_map Content prob)) = Crash <->
  (exists p, verify he n dom prob = Panic p)
  \/ (exists e, verify he n dom prob = Err e /\ show_parsing_error e = None).
Proof.
  intros n ln dom prob.
  assert (main he swap n ln (CmdVerify (Content dom) (option_map Content prob)) = print_verification (verify he n dom prob)) as ->
    by (destruct prob; auto).
  unfold print_verification, print_error. destruct (verify he n dom prob) as [ws|e|p|].
  - split; [discriminate|]. intros [(p & E)|(e & E & _)]; discriminate.
  - destruct (show_parsing_error e) eqn:Es; split; try discriminate; eauto.
    intros [(p & E)|(e' & E & E')]; [discriminate|]. congruence.
  - split; eauto.
  - split; [discriminate|]. intros [(p & E)|(e & E & _)]; discriminate.
Qed.

(** The metadata command prints the report exactly when there is one. *)
Theorem C34_metadata_output : forall n ln dom out status,
  main he swap n ln (CmdMetadata (Content dom)) = Exit out status ->
  (exists m, get_metadata he n ln dom = Ok m /\ out = [Stdout (show_metadata m)])
  \/ (exists e text, get_metadata he n ln dom = Err e /\ show_parsing_error e = Some text /\ out = [Stderr (error_text text)]).
Proof.
  intros n ln dom out status. unfold main, print_error. destruct (get_metadata he n ln dom) as [m|e|p|]; try discriminate.
  - intros E. injection E as <- <-. eauto.
  - destruct (show_parsing_error e) eqn:Es; [|discriminate]. intros E. injection E as <- <-. right. eauto.
Qed.

(** to_json writes the exported text into the file, or nothing. *)
Theorem C34_to_json_file : forall n ln dom prob name path werr out status content,
  main he swap n ln (CmdSerialize (Content dom) (option_map Content prob) (ToFile name path werr)) = Exit out status ->
  (In (Cli.Written name content) out <-> werr = None /\ to_json swap n dom prob = Ok content).
Proof.
  intros n ln dom prob name path werr out status content E.
  assert (print_json (match prob with Some _ => true | None => false end) (ToFile name path werr) (to_json swap n dom prob)
          = Exit out status) as E' by (destruct prob; exact E). clear E.
  unfold print_json, print_error in E'. destruct (to_json swap n dom prob) as [t|e|p|]; try discriminate.
  - destruct werr as [msg|]; injection E' as <- <-; simpl.
    + split; [intros [E|[]]; discriminate|]. intros [E _]; discriminate.
    + split; [intros [E|[E|[]]]; [injection E as <-; auto|discriminate]|]. intros [_ E]. injection E as <-. auto.
  - destruct (show_parsing_error e); [|discriminate]. injection E' as <- <-.
    split; [intros [E|[]]; discriminate|]. intros [_ E]; discriminate.
Qed.

(** Without an output file the exported text is printed after the success line. *)
Theorem C34_to_json_stdout : forall n ln dom prob out status,
  main he swap n ln (CmdSerialize (Content dom) (option_map Content prob) ToStdout) = Exit out status ->
  (exists text, to_json swap n dom prob = Ok text /\ out = [Stdout success_text; Stdout text])
  \/ (exists e text, to_json swap n dom prob = Err e /\ show_parsing_error e = Some text /\ out = [Stderr (error_text text)]).
Proof.
  intros n ln dom prob out status E.
  assert (print_json (match prob with Some _ => true | None => false end) ToStdout (to_json swap n dom prob)
          = Exit out status) as E' by (destruct prob; exact E). clear E.
  unfold print_json, print_error in E'. destruct (to_json swap n dom prob) as [t|e|p|]; try discriminate.
  - injection E' as <- <-. left. eauto.
  - destruct (show_parsing_error e) eqn:Es; [|discriminate]. injection E' as <- <-. right. eauto.
Qed.
(** Failures of to_json are reported on stderr only; success names the file. *)
Theorem C34_to_json_file_output : forall n ln dom prob name path werr out status,
  main he swap n ln (CmdSerialize (Content dom) (option_map Content prob) (ToFile name path werr)) = Exit out status ->
  match to_json swap n dom prob, werr with
  | Ok text, None => out = [Cli.Written name text;
      Stdout (match prob with Some _ => path | None => ("Result successfully written to " ++ name)%string end)]
  | Ok _, Some msg => out = [Stderr (error_text msg)]
  | Err e, _ => exists text, show_parsing_error e = Some text /\ out = [Stderr (error_text text)]
  | _, _ => False
  end.
Proof.
  intros n ln dom prob name path werr out status E.
  assert (print_json (match prob with Some _ => true | None => false end) (ToFile name path werr) (to_json swap n dom prob)
          = Exit out status) as E' by (destruct prob; exact E). clear E.
  unfold print_json, print_error in E'. destruct (to_json swap n dom prob) as [t|e|p|]; try discriminate.
  - destruct werr as [msg|]; injection E' as <- <-; auto. destruct prob; auto.
  - destruct (show_parsing_error e) eqn:Es; [|discriminate]. injection E' as <- <-. eauto.
Qed.

(** A file that cannot be read is reported on stderr, and nothing else is
    done. *)
Theorem C34_unreadable : forall n ln msg c,
  c = CmdMetadata (ReadError msg) \/ (exists p, c = CmdVerify (ReadError msg) p)
  \/ (exists d, c = CmdVerify (Content d) (Some (ReadError msg)))
  \/ (exists p o, c = CmdSerialize (ReadError msg) p o)
  \/ (exists d o, c = CmdSerialize (Content d) (Some (ReadError msg)) o) ->
  main he swap n ln c = Exit [Stderr (error_text msg)] 0.
Proof.
  intros n ln msg c [->|[(p & ->)|[(d & ->)|[(p & o & ->)|(d & o & ->)]]]]; auto.
Qed.

End Export.

Definition io_theorems := (
  @C31_domain_agrees,
  @C31_domain_clean_iff,
  @C31_domain_lines,
  @C31_problem_agrees,
  @C31_problem_clean_iff,
  @C31_problem_broken_domain,
  @C31_problem_without_domain,
  @C31_broken_header_silent,
  @C31_domain_request,
  @C31_problem_request,
  @C31_orphan_request,
  @C32_latest_text,
  @C32_other_documents_irrelevant,
  @C32_notifications_total,
  @C32_first_change_only,
  @C33_text_determines_trees,
  @C34_status_zero,
  @C34_verify_success_iff,
  @C34_verify_crash_iff,
  @C34_metadata_output,
  @C34_to_json_file,
  @C34_to_json_file_output,
  @C34_to_json_stdout,
  @C34_unreadable,
  @C41_export_iff_parses,
  @C41_export_error_iff,
  @C41_verified_exports).

(** ** Concrete cases *)
Open Scope string_scope.
Definition bad_effect : string := dom_with (nl ++ "(:action z :parameters () :effect (zz))").
Definition repeats : string := dom_with "(:predicates (q ?z))".
Definition no_header : string := "(define (domian d))" ++ nl.

(** C31: the kinds of answers for domain documents, and the hypotheses of
    the theorems about problems. *)
Example C31_example :
  @classify uni0 dom1 = Some VDomain /\ @classify uni0 prob1 = Some VProblem
  /\ @diagnose_domain uni0 env_id 300 dom1 = Ok []
  /\ @diagnose_domain uni0 env_id 300 bad_effect =
     Ok [mkDiag 3 4 SevError "line 4: predicate zz is not defined."]
  /\ @diagnose_domain uni0 env_id 300 repeats = Panic PanicUrl
  /\ @diagnose_problem uni0 env_id 300 (Some dom1) prob1 = Ok []
  /\ @diagnose_problem uni0 env_id 300 (Some dom1) (prob_with "(:init (zz))") =
     Ok [mkDiag 1 2 SevError "line 2: predicate zz is not defined."].
Proof.
  split; [vm_compute; reflexivity|]. split; [vm_compute; reflexivity|]. split; [vm_compute; reflexivity|].
  split; [vm_compute; reflexivity|]. split; [vm_compute; reflexivity|]. split; [vm_compute; reflexivity|].
  vm_compute. reflexivity.
Qed.
Example C31_two_errors_example :
  exists d, @diagnose_problem uni0 env_id 300 (Some bad_effect) "(define (problem p) (domain d) (:objects" =
     Ok [mkDiag 3 4 SevError "line 4: predicate zz is not defined."; d].
Proof. eexists. vm_compute. reflexivity. Qed.
Example C31_header_example : @classify uni0 no_header = Some VMaybeNotHDDL.
Proof. vm_compute. reflexivity. Qed.

(** Reporting an error is not guaranteed: a domain with a repeated definition
    crashes the request. *)
Theorem C31_every_error_reported_refuted : exists s e,
  @classify uni0 s = Some VDomain /\ @verify uni0 env_id 300 s None = Err e
  /\ @diagnose_domain uni0 env_id 300 s = Panic PanicUrl.
Proof.
  exists repeats. eexists. split; [vm_compute; reflexivity|]. split; [vm_compute; reflexivity|]. vm_compute. reflexivity.
Qed.
(** The diagnostics of a problem document can be about lines of the domain
    document, beyond the end of the problem document. *)
Theorem C31_problem_lines_refuted : exists dom s d,
  @classify uni0 s = Some VProblem /\ @diagnose_problem uni0 env_id 300 (Some dom) s = Ok [d]
  /\ (dg_start d > count_nl s)%N.
Proof.
  exists bad_effect, "(define (problem e) (domain d))". eexists.
  split; [vm_compute; reflexivity|]. split; [vm_compute; reflexivity|]. vm_compute. reflexivity.
Qed.
(** A document that verification rejects can get an empty report. *)
Theorem C31_unclassified_refuted : exists s e,
  @diagnose uni0 env_id 300 [("u", s)] "u" [] = Ok (Report []) /\ @verify uni0 env_id 300 s None = Err e.
Proof. exists no_header. eexists. split; [vm_compute; reflexivity|]. vm_compute. reflexivity. Qed.

(** Requests: a problem next to another problem, a note and two domains. *)
Example C31_request_example :
  @first_domain uni0 [(true, prob1); (false, bad_effect); (true, dom1); (true, bad_effect)] dom1
  /\ @no_domain uni0 [(true, prob1); (false, dom1)]
  /\ @classify uni0 prob1 = Some VProblem /\ run dom1 None = Ok [].
Proof.
  split; [|split; [|split; vm_compute; reflexivity]].
  - exists [(true, prob1); (false, bad_effect)], [(true, bad_effect)]. split; [reflexivity|]. split; [vm_compute; reflexivity|].
    intros c [E|[E|[]]]; [|discriminate]. injection E as <-. eexists. split; [vm_compute; reflexivity|discriminate].
  - intros c [E|[E|[]]]; [|discriminate]. injection E as <-. eexists. split; [vm_compute; reflexivity|discriminate].
Qed.
(** With two domains in the folder the answer depends on the order in which
    the file system lists them, whatever domain the problem names. *)
Theorem C31_listing_order_refuted : exists dir dir' s d, Permutation dir dir' /\
  @diagnose uni0 env_id 300 [("u", s)] "u" dir = Ok (Report [])
  /\ @diagnose uni0 env_id 300 [("u", s)] "u" dir' = Ok (Report [d]).
Proof.
  exists [(true, dom1); (true, bad_effect)], [(true, bad_effect); (true, dom1)], prob1. eexists.
  split; [apply perm_swap|]. split; [vm_compute; reflexivity|]. vm_compute. reflexivity.
Qed.

(** C32: a history with two documents. *)
Definition history : list event :=
  [DidOpen "d" dom1; DidOpen "p" prob1; DidChange "d" [bad_effect; dom1]; DidSave "p" None (Some prob1)].
Example C32_example :
  latest "d" history bad_effect /\ never_sent "x" history
  /\ match @session uni0 env_id 300 [] (history ++ [Diagnose "d" []; Diagnose "x" []; Diagnose "p" [(true, dom1)]])%list with
     | Ok (_, rs) => rs = [Report [mkDiag 3 4 SevError "line 4: predicate zz is not defined."]; InvalidParams "x"; Report []]
     | _ => False
     end.
Proof.
  split.
  { exists [DidOpen "d" dom1; DidOpen "p" prob1], (DidChange "d" [bad_effect; dom1]), [DidSave "p" None (Some prob1)].
    split; [reflexivity|]. split; [reflexivity|]. repeat constructor. }
  split; [repeat constructor|]. vm_compute. reflexivity.
Qed.
(** The last of several changes is not what is diagnosed. *)
Theorem C32_last_change_refuted : exists changes last,
  changes = [bad_effect; last] /\ @verify uni0 env_id 300 last None = Ok []
  /\ forall ds rs, @session uni0 env_id 300 [] [DidOpen "d" dom1; DidChange "d" changes; Diagnose "d" []] = Ok (ds, rs) ->
     rs <> [Report []].
Proof.
  exists [bad_effect; dom1], dom1. split; auto. split; [vm_compute; reflexivity|].
  intros ds rs E. vm_compute in E. injection E as <- <-. discriminate.
Qed.
(** The text of a domain in the editor is not used for its problems: the file
    on disk is. *)
Theorem C32_unsaved_domain_refuted : exists es uri dir ds,
  latest "d" es bad_effect /\ @session uni0 env_id 300 [] (es ++ [Diagnose uri dir])%list = Ok (ds, [Report []])
  /\ dir = [(true, dom1)] /\ latest uri es prob1.
Proof.
  exists [DidOpen "d" bad_effect; DidOpen "p" prob1], "p", [(true, dom1)]. eexists. split.
  { exists [], (DidOpen "d" bad_effect), [DidOpen "p" prob1]. split; [reflexivity|]. split; [reflexivity|]. repeat constructor. }
  split; [vm_compute; reflexivity|]. split; auto.
  exists [DidOpen "d" bad_effect], (DidOpen "p" prob1), []. split; [reflexivity|]. split; [reflexivity|]. constructor.
Qed.

(** C33: rendering of reals with which the hypothesis holds. *)
Fixpoint num_chars (s : string) : bool :=
  match s with
  | EmptyString => true
  | String c s' => (is_digit c || existsb (Ascii.eqb c) ["."; "e"; "E"; "+"; "-"]%char) && num_chars s'
  end.
Fixpoint has_dot (s : string) : bool :=
  match s with EmptyString => false | String c s' => Ascii.eqb c "." || has_dot s' end.
Definition flo0 : Floats :=
  {| f64_text := fun l => if num_chars l && has_dot l then (if l =? "0.50" then "0.5" else l) else "null" |}.
Lemma flo0_ok : floats_ok flo0.
Proof.
  intros l. simpl. destruct (num_chars l && has_dot l) eqn:E; auto. right.
  apply andb_true_iff in E as [E1 E2].
  assert (real_text l) as Hl.
  { split.
    - clear E2. induction l as [|c l IH]; simpl in *; auto. apply andb_true_iff in E1 as [E1 E2]. split; auto.
      apply orb_true_iff in E1 as [E1|E1]; [left; auto|]. right. simpl.
      rewrite !orb_true_iff, !Ascii.eqb_eq in E1. intuition.
    - left. clear E1. induction l as [|c l IH]; simpl in *; try discriminate. apply orb_true_iff in E2 as [E2|E2]; auto.
      left. apply Ascii.eqb_eq in E2. auto. }
  destruct (String.eqb_spec l "0.50"); auto. split; simpl; repeat split; auto 8; unfold num_char; simpl; auto 8.
Qed.
Definition weighted (w : string) : string :=
  dom_with ("(:action z :parameters () :effect (probabilistic " ++ w ++ " (q)))").
(** Two documents with the same JSON, and one with another. *)
Example C33_example :
  exists t t', @to_json uni0 flo0 false 300 (weighted "0.5") (Some prob1) = Ok t
  /\ @to_json uni0 flo0 false 300 (weighted "0.50  ") (Some (prob1 ++ "rest")) = Ok t
  /\ @to_json uni0 flo0 false 300 (weighted "0.25") (Some prob1) = Ok t' /\ t <> t'.
Proof.
  eexists. eexists. split; [vm_compute; reflexivity|]. split; [vm_compute; reflexivity|].
  split; [vm_compute; reflexivity|]. discriminate.
Qed.
(** The trees are not determined completely: the spelling of reals is lost. *)
Theorem C33_real_spelling_refuted : exists dom dom' d d' t,
  @to_json uni0 flo0 false 300 dom None = Ok t /\ @to_json uni0 flo0 false 300 dom' None = Ok t
  /\ @parse uni0 300 dom = Ok (ADomain d) /\ @parse uni0 300 dom' = Ok (ADomain d') /\ d <> d'.
Proof.
  exists (weighted "0.5"), (weighted "0.50"). do 3 eexists. split; [vm_compute; reflexivity|]. split; [vm_compute; reflexivity|].
  split; [vm_compute; reflexivity|]. split; [vm_compute; reflexivity|]. discriminate.
Qed.

(** C41: a document is exported although verification rejects it. *)
Theorem C41_export_is_no_verification_refuted : exists dom e t,
  @verify uni0 env_id 300 dom None = Err e /\ @to_json uni0 flo0 false 300 dom None = Ok t.
Proof. exists bad_effect. do 2 eexists. split; [vm_compute; reflexivity|]. vm_compute. reflexivity. Qed.
Example C41_example :
  @to_json uni0 flo0 false 300 ("(define (domain d) (:predicates (q)))" ++ nl) None = Ok
("{
  ""domain"": {
    ""name"": ""d"",
    ""types"": null,
    ""constants"": null,
    ""requirements"": [],
    ""predicates"": [
      {
        ""name"": ""q"",
        ""name_pos"": {
          ""line"": 1
        },
        ""variables"": []
      }
    ],
    ""compound_tasks"": [],
    ""methods"": [],
    ""actions"": [],
    ""functions"": []
  }
}").
Proof. vm_compute. reflexivity. Qed.

(** C34: one run of each kind. *)
Definition cli (c : command) : Cli.run := @main uni0 flo0 env_id false 300 300 c.
Example C34_example :
  cli (CmdVerify (Content dom1) (option_map Content (Some prob1))) = Exit [ok_line] 0
  /\ cli (CmdVerify (Content bad_effect) (option_map Content None))
     = Exit [error_line "line 4: predicate zz is not defined."] 0
  /\ cli (CmdVerify (Content prob1) (option_map Content None)) = Crash
  /\ (exists out, cli (CmdMetadata (Content dom1)) = Exit [Stdout out] 0)
  /\ (exists t, cli (CmdSerialize (Content dom1) (option_map Content None) (ToFile "f" "/f" None))
      = Exit [Cli.Written "f" t; Stdout "Result successfully written to f"] 0).
Proof.
  split; [vm_compute; reflexivity|]. split; [vm_compute; reflexivity|]. split; [vm_compute; reflexivity|].
  split; [eexists; vm_compute; reflexivity|]. eexists. vm_compute. reflexivity.
Qed.
(** The exit status does not tell failure from success. *)
Theorem C34_status_uninformative_refuted : exists good bad out out',
  cli good = Exit out 0 /\ In ok_line out /\ cli bad = Exit out' 0 /\ ~ In ok_line out'.
Proof.
  exists (CmdVerify (Content dom1) None), (CmdVerify (Content bad_effect) None). do 2 eexists.
  split; [vm_compute; reflexivity|]. split; [left; reflexivity|]. split; [vm_compute; reflexivity|].
  intros [E|[]]. discriminate.
Qed.
