(** C40: when metadata exist for recursive methods with partial orders. *)
From Coq Require Import String NArith Bool List Lia PeanoNat Permutation Relations Operators_Properties.
From Verif Require Import Base Token Lexer Errors Ast Parser Graph Semantic Tdg Api GraphProofs ParserProofs TdgGraph TdgReach TdgNull SpecTdg SpecRec SpecSem TdgTop TdgRec TdgRecTop VerifyTop SpecOrder TdgOrder PropsLex PropsParse PropsSem PropsTdg.
Import ListNotations.
Open Scope string_scope.
Open Scope list_scope.
Open Scope nat_scope.

Section S.
Context `{Unicode}.
Variable he : hash_env.
Hypothesis Hhe : hash_env_ok he.

Lemma graph_closed d g : tdg_new d = Ok g -> distinct_names d -> closed_names d.
Proof.
  intros Eg Hd m Hm. apply In_nth_error in Hm as (i & Ei). split.
  - destruct (methods_path d g Eg Hd [m]) as (c & Hc).
    { intros x [<-|[]]. eapply nth_error_In; eauto. }
    inversion Hc as [|? ? ? ? [_ Hn] _]; subst. eapply nth_error_In. exact Hn.
  - intros s Hs. destruct (subtask_at d g Eg Hd i m s Ei Hs) as (k & Hk). eapply nth_error_In. exact Hk.
Qed.

(** Enough time for both loops suffices. *)
Theorem C27_metadata_total : forall m dom d, parse m dom = Ok (ADomain d) -> distinct_names d ->
  closed_names d -> d_tasks d <> [] ->
  (forall ms me x, simple_cycle d ms -> In (me, x) (cycle_links ms) -> usable me x) ->
  exists k, forall n lf, k <= n -> k <= lf -> exists md, get_metadata he n lf dom = Ok md.
Proof.
  intros m dom d Ep Hd Hcl Hne Hu. destruct (tdg_new_total d Hcl) as (g & Eg).
  assert (exists x, compound d x) as Hc.
  { destruct (d_tasks d) as [|t ts] eqn:Et; [congruence|]. exists (task_name t). unfold compound. rewrite Et. left; auto. }
  destruct (nullables_ok d g Eg he Hhe (tdg_bound g) Hc (le_n _)) as (l & El & En).
  set (nulls := fold_left (fun acc i => add_str (name_of g i) acc) l []) in *.
  assert (exists null, get_task_indices g nulls = Ok null) as (null & Enull).
  { apply (indices_total d g Eg Hd). intros x Hx. unfold nulls in Hx. apply fold_add_str in Hx as [[]|(i & Hi & <-)].
    destruct (nullables_method he Hhe g (from_lt d g Eg) (to_lt d g Eg) (tdg_bound g) l El i Hi) as (me & Hme).
    apply (from_set_In d g Eg) in Hme as (md' & _ & Ei). apply (index_at d Hd) in Ei. exists i.
    rewrite (name_of_at d g Eg _ _ Ei). auto. }
  destruct (search_usable d g Eg Hd he Hhe null Hu) as (k & Hk).
  exists (m + tdg_bound g + k + orders_fuel d). intros n lf Hn Hlf. destruct (Hk n lf) as (r & Er); try lia.
  unfold get_metadata, parse_as_domain.
  rewrite (parse_mono m n) by (try lia; congruence). rewrite Ep. cbn [obind]. unfold domain_metadata. rewrite Eg. cbn [obind].
  rewrite (nullables_mono he g (tdg_bound g) n) by (try lia; congruence). rewrite En. cbn [obind].
  unfold get_recursion_type. rewrite Enull. cbn [obind]. rewrite Er. cbn [obind]. eauto.
Qed.

(** With enough time the metadata are found exactly if every name is declared,
    there is a compound task and every step of every cycle is usable. *)
Theorem C40_metadata_iff : forall m dom d, parse m dom = Ok (ADomain d) -> distinct_names d ->
  ((exists n lf md, get_metadata he n lf dom = Ok md) <->
   closed_names d /\ d_tasks d <> [] /\
   forall ms me x, simple_cycle d ms -> In (me, x) (cycle_links ms) -> usable me x).
Proof.
  intros m dom d Ep Hd. split.
  - intros (n & lf & md & E). assert (parse n dom = Ok (ADomain d)) as Ep'.
    { pose proof E as E'. unfold get_metadata in E'. apply bind_ok in E' as (d' & E1 & _). unfold parse_as_domain in E1.
      apply bind_ok in E1 as ([d''|] & E1 & E2); [|discriminate]. rewrite E1. f_equal. f_equal. symmetry. eapply same_domain; eauto. }
    destruct (metadata_inv he Hhe n lf dom md d E Ep') as (g & nulls & Eg & En & Er & _).
    pose proof (graph_closed d g Eg Hd) as Hcl. split; auto. split.
    + intros Ht. rewrite (C27_hangs_without_tasks he m dom d Ep Hcl Ht n lf) in E. discriminate.
    + unfold get_recursion_type in Er. apply bind_ok in Er as (null & _ & Er).
      apply (search_needs_usable d g Eg Hd he Hhe null n lf _ Er).
  - intros (Hcl & Hne & Hu). destruct (C27_metadata_total m dom d Ep Hd Hcl Hne Hu) as (k & Hk).
    exists k, k. apply Hk; auto.
Qed.
End S.
Definition order_theorems := (@C40_metadata_iff, @C27_metadata_total).

(** ** Concrete cases *)
(** A constraint on an unknown identifier, a circular order, and an order that works. *)
Definition loose (o : string) : string :=
  dm [tk "t"; ac "a"; ac "b"; me "m" "t" (":subtasks (and (i (t)) (j (a)) (k (b))) :ordering (and " ++ o ++ ")")].
Example C40_unknown_identifier :
  @get_metadata uni0 env_id 300 50 (loose "(< i j) (< j z)") = Panic PanicUnwrap
  /\ @get_metadata uni0 env_id 300 50 (loose "(< i j) (< j j)") = OutOfFuel
  /\ meta (loose "(< i j) (< j k)") = Some (GrowingEmptyPrefix [("t", "m"); ("t", "m")], []).
Proof. vm_compute. auto. Qed.
Definition loose_ords (l : list (string * string)) : domain_ast -> Prop := fun d =>
  closed_names d /\ distinct_names d /\ d_tasks d <> []
  /\ exists m, d_methods d = [m] /\ htn_orderings (m_tn m) = Partial l /\ simple_cycle d [m].
Ltac loose_tac := split; [vm_compute; reflexivity|]; split; [|split; [unfold distinct_names; simpl; nodup|split; [discriminate|]]];
  [intros m [<-|[]]; simpl; split; [auto|]; by_cases; subst; simpl; auto|
   eexists; split; [reflexivity|split; [reflexivity|]];
   split; [discriminate|split; [apply incl_refl|split; [simpl; nodup|simpl; repeat constructor]]]].
Example C40_loose_parses : exists d, @parse uni0 300 (loose "(< i j) (< j k)") = Ok (ADomain d) /\ loose_ords [("i", "j"); ("j", "k")] d.
Proof. eexists. loose_tac. Qed.
Example C40_unknown_parses : exists d, @parse uni0 300 (loose "(< i j) (< j z)") = Ok (ADomain d) /\ loose_ords [("i", "j"); ("j", "z")] d.
Proof. eexists. loose_tac. Qed.
Example C40_usable_example : exists d, @parse uni0 300 (loose "(< i j) (< j k)") = Ok (ADomain d)
  /\ loose_ords [("i", "j"); ("j", "k")] d
  /\ forall ms me x, simple_cycle d ms -> In (me, x) (cycle_links ms) -> usable me x.
Proof.
  destruct C40_loose_parses as (d & Ep & Hl). exists d. split; auto. split; auto. pose proof Hl as (_ & Hd & _).
  apply (@C40_metadata_iff uni0 env_id env_id_ok 300 _ d Ep Hd).
  destruct (is_ok_ex (@get_metadata uni0 env_id 300 50 (loose "(< i j) (< j k)"))) as (md & E); [vm_compute; reflexivity|]. eauto.
Qed.
(** "Every accepted domain has metadata" is false: orders over identifiers that
    are no subtask are accepted. *)
Theorem C40_accepted_has_metadata_refuted : exists dom ws, run dom None = Ok ws
  /\ forall he, hash_env_ok he -> forall n lf md, @get_metadata uni0 he n lf dom <> Ok md.
Proof.
  exists (loose "(< i j) (< j z)").
  destruct (is_ok_ex (run (loose "(< i j) (< j z)") None)) as (ws & Ew); [vm_compute; reflexivity|].
  exists ws. split; auto. intros he Hhe n lf md E.
  assert (exists d m, @parse uni0 300 (loose "(< i j) (< j z)") = Ok (ADomain d) /\ distinct_names d /\ simple_cycle d [m]
    /\ In (m, "t") (cycle_links [m]) /\ ~ usable m "t") as (d & m & Ep & Hd & Hs & Hl & Hu).
  { destruct C40_unknown_parses as (d & Ep & _ & Hd & _ & m & Em & Eo & Hs). exists d, m. split; auto. split; auto. split; auto.
    vm_compute in Ep. injection Ep as <-. injection Em as <-. split; [left; reflexivity|]. intros (_ & _ & Hu).
    destruct (Hu "i" "z") as [(y & l1 & s & l2 & E1 & E2 & _) _].
    - eexists. split; [left; reflexivity|split; reflexivity].
    - eapply t_trans; [apply t_step; left; reflexivity|apply t_step; right; left; reflexivity].
    - simpl in E1. destruct l1 as [|? [|? [|? [|]]]]; try discriminate E1; injection E1; intros; subst; discriminate E2. }
  apply Hu. destruct (proj1 (@C40_metadata_iff uni0 he Hhe 300 _ d Ep Hd) (ex_intro _ n (ex_intro _ lf (ex_intro _ md E)))) as (_ & _ & Hall).
  apply (Hall [m] m "t" Hs Hl).
Qed.
