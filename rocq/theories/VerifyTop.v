(** Verification of domains and documents as a whole. *)
From Coq Require Import String NArith Bool List Lia PeanoNat Permutation Relations.
From Verif Require Import Base Token Lexer Errors Ast Graph Semantic GraphProofs Tdg Parser Api SpecSem SpecTdg
  SpecPrint PrintSound ParserProofs SemProofs SemDomain SemProblem TdgGraph TdgReach TdgNull TdgTop.
Import ListNotations.
Open Scope list_scope.
Open Scope nat_scope.
Open Scope outcome_scope.

Lemma bind_ok {A B} (m : outcome A) (k : A -> outcome B) r :
  (x <-- m ;; k x) = Ok r -> exists x, m = Ok x /\ k x = Ok r.
Proof. destruct m; simpl; try discriminate. eauto. Qed.
Lemma bind_err {A B} (m : outcome A) (k : A -> outcome B) e :
  (x <-- m ;; k x) = Err e -> m = Err e \/ exists x, m = Ok x /\ k x = Err e.
Proof. destruct m; simpl; try discriminate; eauto. intros E. injection E as ->. auto. Qed.
Lemma bind_panic {A B} (m : outcome A) (k : A -> outcome B) e :
  (x <-- m ;; k x) = Panic e -> m = Panic e \/ exists x, m = Ok x /\ k x = Panic e.
Proof. destruct m; simpl; try discriminate; eauto. intros E. injection E as ->. auto. Qed.
Lemma bind_nofuel {A B} (m : outcome A) (k : A -> outcome B) :
  (x <-- m ;; k x) <> OutOfFuel -> m <> OutOfFuel.
Proof. destruct m; simpl; congruence. Qed.

(** ** More fuel does not change an answer *)
Section Mono.
Variable he : hash_env.
Variable g : tdg.
Lemma bfs_mono : forall n m q v r, n <= m -> bfs he n g q v r <> OutOfFuel -> bfs he m g q v r = bfs he n g q v r.
Proof.
  induction n as [|n IH]; intros [|m] [|t q] v r Hm Hf; simpl in *; auto; try lia; try congruence.
  destruct (mem_nat t v); apply IH; auto; lia.
Qed.
Lemma null_mono_fuel : forall n m st, n <= m -> null_loop he n g st <> OutOfFuel -> null_loop he m g st = null_loop he n g st.
Proof.
  induction n as [|n IH]; intros [|m] st Hm Hf; simpl in *; auto; destruct (_ || _); auto; try lia; try congruence.
  apply IH; auto; lia.
Qed.
Lemma nullables_mono n m : n <= m -> compute_nullables he n g <> OutOfFuel -> compute_nullables he m g = compute_nullables he n g.
Proof.
  unfold compute_nullables. intros Hm Hf. rewrite (null_mono_fuel n m); auto. exact (bind_nofuel _ _ Hf).
Qed.
Lemma reachable_mono n m s : n <= m -> reachable he n g s <> OutOfFuel -> reachable he m g s = reachable he n g s.
Proof.
  unfold reachable. intros Hm. destruct (index_first s (tg_tasks g)) as [i|]; auto.
  destruct (nth i (tg_tasks g) (""%string, false)) as [a [|]]; auto.
  intros Hf. rewrite (bfs_mono n m) by (auto; exact (bind_nofuel _ _ Hf)).
  destruct (bfs he n g [i] [] [i]); simpl in *; auto.
  rewrite (nullables_mono n m); auto. exact (bind_nofuel _ _ Hf).
Qed.
Lemma refinement_mono n m : n <= m -> forall ts, refinement_warnings he n g ts <> OutOfFuel ->
  refinement_warnings he m g ts = refinement_warnings he n g ts.
Proof.
  intros Hm. induction ts as [|t ts IH]; intros Hf; simpl in *; auto.
  rewrite (reachable_mono n m) by (auto; exact (bind_nofuel _ _ Hf)).
  destruct (reachable he n g (task_name t)); simpl in *; auto.
  rewrite IH; auto. exact (bind_nofuel _ _ Hf).
Qed.
End Mono.

Lemma verify_domain_mono he n m d : n <= m -> verify_domain he n d <> OutOfFuel ->
  verify_domain he m d = verify_domain he n d.
Proof.
  unfold verify_domain. intros Hm. destruct (check_domain d); simpl; auto. destruct (tdg_new d) as [g| | |]; simpl; auto.
  intros Hf. rewrite (refinement_mono he g n m Hm); auto. exact (bind_nofuel _ _ Hf).
Qed.

Lemma verify_mono `{Unicode} he n m dom prob : n <= m -> verify he n dom prob <> OutOfFuel ->
  verify he m dom prob = verify he n dom prob.
Proof.
  intros Hm. unfold verify, parse_as_domain, parse_as_problem. intros Hf.
  rewrite (parse_mono n m dom) by (auto; exact (bind_nofuel _ _ (bind_nofuel _ _ Hf))).
  destruct (parse n dom) as [[d|p]| | |]; simpl in *; auto.
  rewrite (verify_domain_mono he n m) by (auto; exact (bind_nofuel _ _ Hf)).
  destruct (verify_domain he n d) as [tb| | |]; simpl in *; auto.
  destruct prob as [p|]; auto. rewrite (parse_mono n m p); auto. exact (bind_nofuel _ _ (bind_nofuel _ _ Hf)).
Qed.

(** ** Domains *)
Section Domain.
Variable he : hash_env.
Hypothesis Hhe : hash_env_ok he.
Variable d : domain_ast.

Lemma decl_In t : In t (ho_decl he (d_tasks d)) <-> In t (d_tasks d).
Proof. split; apply Permutation_in; [|apply Permutation_sym]; apply ho_decl_ok; auto. Qed.

Lemma reachable_calm g fuel n : tdg_new d = Ok g -> compound d n ->
  (forall e, reachable he fuel g n <> Err e) /\ (forall p, reachable he fuel g n <> Panic p).
Proof.
  intros Hg Hc. destruct (compound_index d g Hg n Hc) as (i & Ei & En). unfold reachable. rewrite Ei, En.
  destruct (bfs_calm he g fuel [i] [] [i]) as [C1 C2].
  unfold compute_nullables. destruct (null_loop_calm he g fuel (null_init he g)) as [D1 D2].
  split; intros x E.
  - apply bind_err in E as [E|(r & _ & E)]; [eapply C1; eauto|].
    apply bind_err in E as [E|(l & _ & E)]; [|discriminate]. apply bind_err in E as [E|(l & _ & E)]; [|discriminate]. eapply D1; eauto.
  - apply bind_panic in E as [E|(r & _ & E)]; [eapply C2; eauto|].
    apply bind_panic in E as [E|(l & _ & E)]; [|discriminate]. apply bind_panic in E as [E|(l & _ & E)]; [|discriminate]. eapply D2; eauto.
Qed.
Lemma refinement_calm g fuel : tdg_new d = Ok g -> forall ts, incl ts (d_tasks d) ->
  (forall e, refinement_warnings he fuel g ts <> Err e) /\ (forall p, refinement_warnings he fuel g ts <> Panic p).
Proof.
  intros Hg. induction ts as [|t ts IH]; intros Hi; simpl; [split; discriminate|].
  destruct (reachable_calm g fuel (task_name t) Hg) as [C1 C2]; [apply in_map, Hi; left; auto|].
  destruct IH as [D1 D2]; [intros x Hx; apply Hi; right; auto|]. split; intros x E.
  - apply bind_err in E as [E|(r & _ & E)]; [eapply C1; eauto|]. apply bind_err in E as [E|(l & _ & E)]; [|discriminate]. eapply D1; eauto.
  - apply bind_panic in E as [E|(r & _ & E)]; [eapply C2; eauto|]. apply bind_panic in E as [E|(l & _ & E)]; [|discriminate]. eapply D2; eauto.
Qed.

Lemma accepted_graph : check_domain d = Ok tt -> exists g, tdg_new d = Ok g.
Proof. intros E. apply tdg_new_total, accepted_closed, check_domain_ok; auto. Qed.

Lemma verify_domain_err fuel e : verify_domain he fuel d = Err e <-> check_domain d = Err e.
Proof.
  unfold verify_domain. split; [|intros ->; auto]. intros E. apply bind_err in E as [E|([] & E0 & E)]; auto. exfalso.
  destruct (accepted_graph E0) as (g & Eg). rewrite Eg in E. simpl in E. apply bind_err in E as [E|(ws & _ & E)]; [|discriminate].
  eapply (proj1 (refinement_calm g fuel Eg _ _)); eauto. Unshelve. intros t Ht. apply decl_In; auto.
Qed.
Lemma verify_domain_panic fuel p : verify_domain he fuel d = Panic p <-> check_domain d = Panic p.
Proof.
  unfold verify_domain. split; [|intros ->; auto]. intros E. apply bind_panic in E as [E|([] & E0 & E)]; auto. exfalso.
  destruct (accepted_graph E0) as (g & Eg). rewrite Eg in E. simpl in E. apply bind_panic in E as [E|(ws & _ & E)]; [|discriminate].
  eapply (proj2 (refinement_calm g fuel Eg _ _)); eauto. Unshelve. intros t Ht. apply decl_In; auto.
Qed.
Lemma verify_domain_sound fuel tb : verify_domain he fuel d = Ok tb -> check_domain d = Ok tt /\ exists ws, tb = table ws d.
Proof.
  unfold verify_domain. intros E. apply bind_ok in E as ([] & E0 & E). split; auto.
  apply bind_ok in E as (g & _ & E). apply bind_ok in E as (ws & _ & E). injection E as <-. exists ws. reflexivity.
Qed.
End Domain.

Definition verify_bound (d : domain_ast) : nat := match tdg_new d with Ok g => tdg_bound g | _ => 0 end.
Lemma verify_domain_total he d fuel : hash_env_ok he -> verify_bound d <= fuel -> check_domain d = Ok tt ->
  exists g, tdg_new d = Ok g
    /\ verify_domain he fuel d
       = Ok (table (map (fun t => NoPrimitiveRefinement (task_name t) (task_pos t))
                        (filter (warns g he fuel) (ho_decl he (d_tasks d)))) d).
Proof.
  intros Hhe Hf E. destruct (accepted_graph d E) as (g & Eg). exists g. split; auto.
  unfold verify_bound in Hf. rewrite Eg in Hf. unfold verify_domain. rewrite E. simpl. rewrite Eg. simpl.
  rewrite (refinement_total d g Eg he Hhe fuel Hf); [reflexivity|]. intros t Ht. apply (decl_In he Hhe) in Ht; auto.
Qed.

(** ** Documents *)
Lemma accepted_nodup d : domain_ok d ->
  NoDup (map pred_name (d_preds d)) /\ NoDup (map task_name (d_tasks d)) /\ NoDup (map act_name (d_actions d)).
Proof. intros (_ & _ & H1 & _ & H2 & _ & H3 & _). auto. Qed.

Section Doc.
Context `{Unicode}.
Variable he : hash_env.
Hypothesis Hhe : hash_env_ok he.

Lemma verify_ok_inv fuel dom prob ws : verify he fuel dom prob = Ok ws ->
  exists d, parse fuel dom = Ok (ADomain d) /\ verify_domain he fuel d = Ok (table ws d) /\ domain_ok d
    /\ match prob with
       | None => True
       | Some s => exists p, parse fuel s = Ok (AProblem p) /\ problem_ok d p
       end.
Proof.
  unfold verify, parse_as_domain. intros E. apply bind_ok in E as (d & E1 & E). apply bind_ok in E1 as (a & Ep & E1).
  destruct a as [d'|]; [|discriminate]. injection E1 as ->.
  apply bind_ok in E as (tb & Ev & E). exists d. split; auto.
  destruct (verify_domain_sound he d fuel tb Ev) as (Ec & ws' & ->). apply check_domain_ok in Ec.
  destruct prob as [s|].
  - unfold parse_as_problem in E. apply bind_ok in E as (p & E1 & E). apply bind_ok in E1 as (a & Epp & E1).
    destruct a as [|p']; [discriminate|]. injection E1 as ->.
    destruct (accepted_nodup d Ec) as (N1 & N2 & N3).
    rewrite verify_problem_check in E. apply bind_ok in E as ([] & E1 & E). injection E as ->.
    split; auto. split; auto. exists p. split; auto. apply (check_problem_ok d N1 N2 N3) in E1. auto.
  - injection E as <-. auto.
Qed.
Lemma verify_err_inv fuel dom prob e : verify he fuel dom prob = Err e ->
  parse fuel dom = Err e
  \/ (exists d, parse fuel dom = Ok (ADomain d) /\ check_domain d = Err e)
  \/ exists d s, parse fuel dom = Ok (ADomain d) /\ domain_ok d /\ prob = Some s
     /\ (parse fuel s = Err e
         \/ exists p ws, parse fuel s = Ok (AProblem p) /\ check_problem d ws p = Err e).
Proof.
  unfold verify, parse_as_domain. intros E. apply bind_err in E as [E|(d & E1 & E)].
  - apply bind_err in E as [E|([d|p] & _ & E)]; auto; discriminate.
  - apply bind_ok in E1 as (a & Ep & E1). destruct a as [d'|]; [|discriminate]. injection E1 as ->. right.
    apply bind_err in E as [E|(tb & Ev & E)].
    + left. exists d. split; auto. apply (verify_domain_err he Hhe) in E. auto.
    + right. destruct (verify_domain_sound he d fuel tb Ev) as (Ec & ws' & ->). apply check_domain_ok in Ec.
      destruct prob as [s|]; [|discriminate]. exists d, s. split; auto. split; auto. split; auto.
      unfold parse_as_problem in E. apply bind_err in E as [E|(p & E1 & E)].
      * left. apply bind_err in E as [E|([d'|p] & _ & E)]; auto; discriminate.
      * apply bind_ok in E1 as (a & Epp & E1). destruct a as [|p']; [discriminate|]. injection E1 as ->.
        right. exists p, ws'. split; auto. rewrite verify_problem_check in E. apply bind_err in E as [E|([] & _ & E)]; auto. discriminate.
Qed.
Lemma verify_panic_inv fuel dom prob e : verify he fuel dom prob = Panic e ->
  parse fuel dom = Panic e
  \/ (exists p, parse fuel dom = Ok (AProblem p) /\ e = PanicExpected)
  \/ (exists d, parse fuel dom = Ok (ADomain d) /\ check_domain d = Panic e)
  \/ exists d s, parse fuel dom = Ok (ADomain d) /\ domain_ok d /\ prob = Some s
     /\ (parse fuel s = Panic e \/ exists d', parse fuel s = Ok (ADomain d') /\ e = PanicExpected).
Proof.
  unfold verify, parse_as_domain. intros E. apply bind_panic in E as [E|(d & E1 & E)].
  - apply bind_panic in E as [E|([d|p] & Ep & E)]; auto; [discriminate|]. injection E as <-. eauto.
  - apply bind_ok in E1 as (a & Ep & E1). destruct a as [d'|]; [|discriminate]. injection E1 as ->. right; right.
    apply bind_panic in E as [E|(tb & Ev & E)].
    + left. exists d. split; auto. apply (verify_domain_panic he Hhe) in E. auto.
    + right. destruct (verify_domain_sound he d fuel tb Ev) as (Ec & ws' & ->). apply check_domain_ok in Ec.
      destruct prob as [s|]; [|discriminate]. exists d, s. split; auto. split; auto. split; auto.
      unfold parse_as_problem in E. apply bind_panic in E as [E|(p & E1 & E)].
      * apply bind_panic in E as [E|([d'|p] & Epp & E)]; auto; [|discriminate]. injection E as <-. eauto.
      * exfalso. apply bind_ok in E1 as (a & Epp & E1). destruct a as [|p']; [discriminate|]. injection E1 as ->.
        apply parse_wf in Epp as [Hw _]. rewrite verify_problem_check in E.
        apply bind_panic in E as [E|([] & _ & E)]; [|discriminate]. eapply (proj1 (check_problem_calm d ws' p Hw)); eauto.
Qed.
End Doc.

(** ** The warnings of a run *)
Lemma refinement_list he g fuel : forall ts ws, refinement_warnings he fuel g ts = Ok ws ->
  ws = map (fun t => NoPrimitiveRefinement (task_name t) (task_pos t)) (filter (warns g he fuel) ts).
Proof.
  induction ts as [|t ts IH]; simpl; intros ws E; [injection E as <-; auto|].
  unfold warns at 1. apply bind_ok in E as (r & Er & E). rewrite Er. apply bind_ok in E as (ws' & Ew & E).
  injection E as <-. rewrite (IH _ Ew). destruct (rs_primitives r), (rs_nullable r); reflexivity.
Qed.
Lemma verify_domain_list he fuel d tb : verify_domain he fuel d = Ok tb -> exists g, tdg_new d = Ok g
  /\ st_warnings tb = map (fun t => NoPrimitiveRefinement (task_name t) (task_pos t))
                          (filter (warns g he fuel) (ho_decl he (d_tasks d))).
Proof.
  unfold verify_domain. intros E. apply bind_ok in E as ([] & _ & E). apply bind_ok in E as (g & Eg & E).
  apply bind_ok in E as (ws & Ew & E). injection E as <-. exists g. split; auto. simpl. apply refinement_list; auto.
Qed.
Lemma verify_domain_warning he fuel d tb n l : hash_env_ok he -> verify_domain he fuel d = Ok tb ->
  In (NoPrimitiveRefinement n l) (st_warnings tb) ->
  exists g t, tdg_new d = Ok g /\ In t (d_tasks d) /\ task_name t = n /\ task_pos t = l /\ warns g he fuel t = true.
Proof.
  intros Hhe E. destruct (verify_domain_list _ _ _ _ E) as (g & Eg & ->). intros Hi.
  apply in_map_iff in Hi as (t & Et & Hi). apply filter_In in Hi as [Hi Hw]. apply (decl_In he Hhe) in Hi.
  injection Et as <- <-. eauto 10.
Qed.

(** ** Running to completion: [r] is the result for all large enough bounds. *)
Definition settles {A} (f : nat -> outcome A) (r : outcome A) : Prop :=
  r <> OutOfFuel /\ exists n0, forall n, n0 <= n -> f n = r.

Lemma settles_fun {A} (f : nat -> outcome A) r r' : settles f r -> settles f r' -> r = r'.
Proof. intros [_ (n & Hn)] [_ (m & Hm)]. rewrite <- (Hn (n + m)), <- (Hm (n + m)); auto; lia. Qed.
Lemma settles_ext {A} (f g : nat -> outcome A) r : (forall n, f n = g n) -> settles f r -> settles g r.
Proof. intros E [H1 (n & Hn)]. split; auto. exists n. intros m Hm. rewrite <- E; auto. Qed.
Lemma settles_verify `{Unicode} he n dom prob r : verify he n dom prob = r -> r <> OutOfFuel ->
  settles (fun n => verify he n dom prob) r.
Proof. intros E Hr. split; auto. exists n. intros m Hm. rewrite <- E. apply verify_mono; auto. congruence. Qed.
Lemma settles_parse `{Unicode} n s r : parse n s = r -> r <> OutOfFuel -> settles (fun n => parse n s) r.
Proof. intros E Hr. split; auto. exists n. intros m Hm. rewrite <- E. apply parse_mono; auto. congruence. Qed.

Lemma verify_domain_settles he d : hash_env_ok he ->
  exists r, settles (fun n => verify_domain he n d) r.
Proof.
  intros Hhe. destruct (check_domain d) as [[]|e|p|] eqn:E.
  - destruct (verify_domain_total he d (verify_bound d) Hhe (le_n _) E) as (g & _ & Ev). eexists. split; [|exists (verify_bound d)].
    2: intros m Hm; apply verify_domain_mono; [exact Hm|rewrite Ev; discriminate]. rewrite Ev. discriminate.
  - exists (Err e). split; [discriminate|]. exists 0. intros n _. apply verify_domain_err; auto.
  - exists (Panic p). split; [discriminate|]. exists 0. intros n _. apply verify_domain_panic; auto.
  - exfalso. eapply check_domain_fuel; eauto.
Qed.
Lemma verify_settles `{Unicode} he n m dom prob : hash_env_ok he -> parse n dom <> OutOfFuel ->
  (forall s, prob = Some s -> parse m s <> OutOfFuel) ->
  exists r, settles (fun k => verify he k dom prob) r.
Proof.
  intros Hhe Hd Hp.
  assert (exists k, verify he k dom prob <> OutOfFuel) as (k & Hk).
  { destruct (parse n dom) as [[d|p]|e|p|] eqn:Ed; try congruence.
    - destruct (verify_domain_settles he d Hhe) as (r & Hr & n0 & Hn0).
      exists (n + m + n0). unfold verify, parse_as_domain.
      rewrite (parse_mono n (n + m + n0) dom) by (try lia; congruence). rewrite Ed. cbn [obind].
      rewrite Hn0 by lia. destruct r as [tb| | |]; cbn [obind]; try discriminate; try congruence.
      destruct prob as [s|]; [|discriminate]. specialize (Hp s eq_refl). unfold parse_as_problem.
      rewrite (parse_mono m (n + m + n0) s) by (try lia; auto). destruct (parse m s) as [[d'|p]| | |] eqn:Ep; cbn [obind]; try discriminate; try congruence.
      unfold verify_domain in Hn0. specialize (Hn0 n0 (le_n _)).
      assert (exists ws, tb = table ws d) as (ws & ->) by (eapply verify_domain_sound; eauto).
      rewrite verify_problem_check. destruct (check_problem_calm d ws p) as [_ C].
      { apply parse_wf in Ep as [Hw _]; auto. }
      destruct (check_problem d ws p); cbn [obind]; congruence.
    - exists n. unfold verify, parse_as_domain. rewrite Ed. discriminate.
    - exists n. unfold verify, parse_as_domain. rewrite Ed. discriminate.
    - exists n. unfold verify, parse_as_domain. rewrite Ed. discriminate. }
  exists (verify he k dom prob). eapply settles_verify; eauto.
Qed.
