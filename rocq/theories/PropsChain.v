(** Property theorems about the ways to write the order of subtasks (C71).
    Specification: SpecChain.v. *)
From Coq Require Import String Ascii NArith Bool List Lia PeanoNat Permutation Relations.
From Verif Require Import Base Token Lexer Errors Ast Parser Graph Semantic Tdg Api StrFacts AstRel VerifyTop ParserProofs
  PropsLex PropsParse SpecTdg SpecRec SpecSem SpecOrder SpecExec TdgGraph TdgTop TdgRecTop PropsSem PropsTdg PropsOrder Shape SpecChain Chain.
Import ListNotations.
Open Scope list_scope.
Open Scope nat_scope.

Section S.
Context `{Unicode}.
Variable he : hash_env.

(** Verification looks at the order for contradictions only: the whole outcome
    is the same for all orders (and identifiers) without one. *)
Theorem C71_any_order : forall n dom dom' d d',
  parse n dom = Ok (ADomain d) -> parse n dom' = Ok (ADomain d') -> domain_rel both_orderly d d' ->
  verify he n dom None = verify he n dom' None
  /\ forall prob prob' p p', parse n prob = Ok (AProblem p) -> parse n prob' = Ok (AProblem p') -> problem_rel both_orderly p p' ->
     verify he n dom (Some prob) = verify he n dom' (Some prob').
Proof.
  intros n dom dom' d d' E E' Hd. unfold verify, parse_as_domain, parse_as_problem. rewrite E, E'. cbn [obind].
  rewrite (rel_verify_domain he n d d' Hd). split; auto. intros prob prob' p p' Ep Ep' Hp. rewrite Ep, Ep'. cbn [obind].
  destruct (verify_domain he n d') as [tb| | |]; auto. cbn [obind]. apply rel_verify_problem; auto.
Qed.

(** A total order and its constraints written out demand the same... *)
Theorem C71_same_meaning : forall a b, spelled_out a b ->
  (forall i j, ordered_at a i j <-> ordered_at b i j) /\ (forall w, linearization a w <-> linearization b w)
  /\ (forall w, linearization b w -> w = seq 0 (length (htn_subtasks b))).
Proof.
  intros a b Hab. pose proof (spelled_ordered a b Hab) as Ho. pose proof Hab as (Et & Hs & _).
  assert (length (htn_subtasks a) = length (htn_subtasks b)) as Hl. { unfold same_calls in Hs. clear -Hs. induction Hs; simpl; auto. }
  assert (forall w, linearization a w <-> linearization b w) as Hlin.
  { intros w. unfold linearization. rewrite Hl. split; intros [H1 H2]; split; auto; intros w1 i w2 j w3 Ew Hji; eapply H2; eauto; apply Ho; auto. }
  split; auto. split; auto. intros w Hw. apply Hlin in Hw as [Hp Hw]. rewrite <- Hl.
  assert (forall k n w, Permutation w (seq k n) -> (forall w1 i w2 j w3, w = w1 ++ i :: w2 ++ j :: w3 -> ~ j < i) -> w = seq k n) as Hsort.
  { clear. intros k n. revert k. induction n as [|n IH]; intros k w Hp Hs; [apply Permutation_sym, Permutation_nil in Hp; auto|].
    destruct w as [|x w]; [apply Permutation_nil in Hp; discriminate|]. simpl in Hp |- *.
    assert (x = k) as ->.
    { assert (In k (x :: w)) as [->|Hk] by (apply (Permutation_in _ (Permutation_sym Hp)); left; auto); auto.
      assert (In x (k :: seq (S k) n)) as [<-|Hx] by (apply (Permutation_in _ Hp); left; auto); auto.
      apply in_seq in Hx. apply in_split in Hk as (w2 & w3 & ->). exfalso. apply (Hs [] x w2 k w3); [auto|lia]. }
    f_equal. apply IH; [eapply Permutation_cons_inv; eauto|]. intros w1 i w2 j w3 -> Hji. apply (Hs (k :: w1) i w2 j w3); auto. }
  apply Hsort; auto. intros w1 i w2 j w3 Ew Hji. apply (Hw _ _ _ _ _ Ew). unfold ordered_at. rewrite Et. split; auto.
  assert (In i w) as Hi by (rewrite Ew; apply in_or_app; right; left; auto).
  apply (Permutation_in _ Hp) in Hi. apply in_seq in Hi. lia.
Qed.
(** ... and have the same outcome of verification. *)
Theorem C71_spelled_out : forall n dom dom' d d',
  parse n dom = Ok (ADomain d) -> parse n dom' = Ok (ADomain d') -> domain_rel spelled_out d d' ->
  verify he n dom None = verify he n dom' None
  /\ forall prob prob' p p', parse n prob = Ok (AProblem p) -> parse n prob' = Ok (AProblem p') -> problem_rel spelled_out p p' ->
     verify he n dom (Some prob) = verify he n dom' (Some prob').
Proof.
  intros n dom dom' d d' E E' Hd.
  destruct (C71_any_order n dom dom' d d' E E' (domain_rel_weaken _ _ _ _ spelled_orderly Hd)) as [H1 H2]. split; auto.
  intros prob prob' p p' Ep Ep' Hp. apply (H2 prob prob' p p'); auto. eapply problem_rel_weaken; [apply spelled_orderly|auto].
Qed.

(** The nullable tasks and the numbers in the metadata do not depend on the order. *)
Theorem C71_nullables : forall n lf dom dom' d d' md md',
  parse n dom = Ok (ADomain d) -> parse n dom' = Ok (ADomain d') -> domain_rel same_calls d d' ->
  get_metadata he n lf dom = Ok md -> get_metadata he n lf dom' = Ok md' ->
  md_nullables md = md_nullables md' /\ md_actions md = md_actions md' /\ md_tasks md = md_tasks md' /\ md_methods md = md_methods md'.
Proof.
  intros n lf dom dom' d d' md md' E E' Hd. unfold get_metadata, parse_as_domain. rewrite E, E'. cbn [obind]. apply rel_metadata; auto.
Qed.

Hypothesis Hhe : hash_env_ok he.
(** Writing out the order of some methods never lowers the class of recursion,
    and it changes the class of no domain whose cycles all begin with nothing. *)
Theorem C71_class : forall n lf dom dom' d d' md md',
  parse n dom = Ok (ADomain d) -> parse n dom' = Ok (ADomain d') -> distinct_names d -> domain_rel same_or_spelled_out d d' ->
  get_metadata he n lf dom = Ok md -> get_metadata he n lf dom' = Ok md' ->
  (md_recursion md = NonRecursive <-> md_recursion md' = NonRecursive)
  /\ class (md_recursion md) <= class (md_recursion md')
  /\ ((forall ms, simple_cycle d ms -> silent (md_nullables md) ms) -> class (md_recursion md) = class (md_recursion md')).
Proof.
  intros n lf dom dom' d d' md md' E E' Hn Hd Em Em'.
  assert (domain_rel same_calls d d') as Hs by (eapply domain_rel_weaken; [apply spelled_same|auto]).
  destruct (C71_nullables n lf dom dom' d d' md md' E E' Hs Em Em') as (Enull & _).
  assert (distinct_names d') as Hn'.
  { unfold distinct_names in *. destruct Hd as (_ & _ & _ & _ & <- & <- & _). auto. }
  destruct (C39_class_is_maximum he Hhe n lf dom md d Em E Hn) as [Hmax Hre].
  destruct (C39_class_is_maximum he Hhe n lf dom' md' d' Em' E' Hn') as [Hmax' Hre']. rewrite <- Enull in *.
  assert (class (md_recursion md) <= class (md_recursion md')) as Hle.
  { destruct Hre as [->|(ms & Hc & Hk & _)]; [simpl; lia|]. destruct (cycle_there d d' Hd ms Hc) as (ms' & Hms & Hc').
    destruct (Hmax' ms' Hc') as (k' & Hk' & Hle'). pose proof (rel_class _ _ _ _ _ Hms Hk Hk'). lia. }
  assert (forall r, r = NonRecursive <-> class r = 0) as H0 by (intros []; simpl; split; congruence).
  assert (class (md_recursion md) = 0 -> class (md_recursion md') = 0) as Hz.
  { intros Hz. destruct Hre' as [->|(ms' & Hc' & Hk' & _)]; auto. destruct (cycle_back d d' Hd ms' Hc') as (ms & Hms & Hc).
    destruct (Hmax ms Hc) as (k & Hk & Hle'). rewrite Hz in Hle'. destruct Hk; lia. }
  split; [rewrite !H0; split; [auto|lia]|]. split; auto. intros Hq.
  destruct Hre' as [E0|(ms' & Hc' & Hk' & _)]; [rewrite E0 in *; simpl in *; lia|].
  destruct (cycle_back d d' Hd ms' Hc') as (ms & Hms & Hc). destruct (Hmax ms Hc) as (k & Hk & Hle').
  destruct (rel_class _ _ _ _ _ Hms Hk Hk') as [_ Hkk]. assert (1 < k) as H1. { destruct Hk; try lia. exfalso; auto. }
  specialize (Hkk H1). lia.
Qed.

(** With the order of all methods written out there are metadata exactly if there
    were before and no identifier that comes directly after an occurrence of
    the next task of a cycle contains the identifier of an occurrence. *)
Theorem C71_delivered_iff : forall m dom dom' d d',
  parse m dom = Ok (ADomain d) -> parse m dom' = Ok (ADomain d') -> distinct_names d -> domain_rel spelled_out d d' ->
  ((exists n lf md, get_metadata he n lf dom' = Ok md) <->
   (exists n lf md, get_metadata he n lf dom = Ok md)
   /\ forall ms me x i j o l, simple_cycle d' ms -> In (me, x) (cycle_links ms) -> htn_orderings (m_tn me) = Partial l ->
        occurs me x i -> In (i, j) l -> occurs me x o -> ~ contains j o).
Proof.
  intros m dom dom' d d' E E' Hn Hd.
  assert (domain_rel same_or_spelled_out d d') as Hd1 by (eapply domain_rel_weaken; [|exact Hd]; intros; right; auto).
  assert (distinct_names d') as Hn'.
  { unfold distinct_names in *. destruct Hd as (_ & _ & _ & _ & <- & <- & _). auto. }
  rewrite (C40_metadata_iff he Hhe m dom d E Hn), (C40_metadata_iff he Hhe m dom' d' E' Hn').
  assert (closed_names d <-> closed_names d') as Hcl.
  { assert (task_names d = task_names d') as Et. { unfold task_names. rewrite (rel_task_list d d' (domain_rel_weaken _ _ _ _ spelled_same Hd1)). auto. }
    assert (forall m, (forall s, In s (htn_subtasks (m_tn m)) -> In (sym_name (sub_task s)) (task_names d')) <-> incl (subtask_names m) (task_names d')) as Hsub.
    { intros m1. unfold subtask_names. split.
      - intros Hall z Hz. apply in_map_iff in Hz as (s & <- & Hs). auto.
      - intros Hi s Hs. apply Hi. apply (in_map (fun s => sym_name (sub_task s)) _ _ Hs). }
    unfold closed_names. rewrite Et. destruct Hd as (_ & _ & _ & _ & _ & _ & Hm). clear -Hm Hsub.
    induction Hm as [|x y l l' (_ & Eh & _ & _ & _ & Hs) _ IH]; [simpl; tauto|]. apply spelled_orderly in Hs as [Hs _]. apply rel_names in Hs.
    split; intros Hall z [<-|Hz].
    - destruct (Hall x (or_introl eq_refl)) as [H1 H2]. split; [rewrite <- Eh; auto|]. apply Hsub. rewrite <- Hs. apply Hsub; auto.
    - apply (proj1 IH); auto. intros w Hw. apply Hall. right; auto.
    - destruct (Hall y (or_introl eq_refl)) as [H1 H2]. split; [rewrite Eh; auto|]. apply Hsub. rewrite Hs. apply Hsub; auto.
    - apply (proj2 IH); auto. intros w Hw. apply Hall. right; auto. }
  assert (d_tasks d = d_tasks d') as Htk by apply Hd.
  assert (forall ms me x, simple_cycle d' ms -> In (me, x) (cycle_links ms) -> In me (d_methods d') /\ In x (subtask_names me)) as Hlink.
  { intros ms me x (_ & Hi & _ & Hl) Hin. rewrite Forall_forall in Hl. split; [|apply (Hl (me, x) Hin)]. apply Hi.
    clear -Hin. destruct ms as [|m ms]; [destruct Hin|]. unfold cycle_links in Hin. generalize dependent (head m). intros h Hin.
    revert Hin. generalize (m :: ms). clear. intros l. induction l as [|m l IH]; simpl; [auto|]. intros [[= <- _]|Hin]; auto. }
  assert (forall me, In me (d_methods d') -> exists m0, In m0 (d_methods d) /\ spelled_out (m_tn m0) (m_tn me)) as Hold.
  { destruct Hd as (_ & _ & _ & _ & _ & _ & Hm). clear -Hm. induction Hm as [|a b l l' (_ & _ & _ & _ & _ & Hs) _ IH]; intros me [].
    - subst. exists a. split; [left|]; auto.
    - destruct (IH me H) as (m0 & H1 & H2). exists m0. split; [right|]; auto. }
  rewrite Hcl, Htk. split.
  - intros (H1 & H2 & H3). split; [split; auto; split; auto|].
    + intros ms me x Hc Hin. destruct (cycle_there d d' Hd1 ms Hc) as (ms' & Hms & Hc').
      assert (htn_orderings (m_tn me) = Total) as Et.
      { assert (In me (d_methods d)) as Hme.
        { destruct Hc as (_ & Hi & _). apply Hi. clear -Hin. destruct ms as [|m ms]; [destruct Hin|]. unfold cycle_links in Hin. generalize dependent (head m). intros h Hin.
          revert Hin. generalize (m :: ms). clear. intros l. induction l as [|m l IH]; simpl; [auto|]. intros [[= <- _]|Hin]; auto. }
        destruct Hd as (_ & _ & _ & _ & _ & _ & Hm). clear -Hm Hme. induction Hm as [|a b l l' (_ & _ & _ & _ & _ & Hs) _ IH]; [destruct Hme|].
        destruct Hme as [<-|Hme]; auto. apply Hs. }
      unfold usable. rewrite Et. exact I.
    + intros ms me x i j o l Hc Hin El. destruct (Hlink ms me x Hc Hin) as [Hme Hx]. destruct (Hold me Hme) as (m0 & _ & Hs).
      apply (proj1 (spelled_usable m0 me x Hs Hx) (H3 ms me x Hc Hin)); auto.
  - intros ((H1 & H2 & _) & H3). split; auto. split; auto. intros ms me x Hc Hin. destruct (Hlink ms me x Hc Hin) as [Hme Hx].
    destruct (Hold me Hme) as (m0 & _ & Hs). apply (spelled_usable m0 me x Hs Hx). intros i j o l El. eapply H3; eauto.
Qed.
End S.

(** ** Concrete cases *)
Open Scope string_scope.
Definition in_order (l : list string) : string := dm [tk "t"; ac "a"; ac "b"; me "m" "t" (tot l)].
Definition by_constraints (ts os : string) : string :=
  dm [tk "t"; ac "a"; ac "b"; me "m" "t" (":subtasks (and " ++ ts ++ ") :ordering (and " ++ os ++ ")")].
Definition tn_prob (s : string) : string := "(define (problem p) (:domain d) (:htn :parameters () " ++ s ++ ") (:init))" ++ nl.
Ltac spelled ids :=
  cbn; repeat (split; [reflexivity|]); split; [unfold same_calls; cbn; repeat (constructor; [split; reflexivity|]); constructor|];
  exists ids; eexists; split; [reflexivity|]; split; [nodup|]; split; [reflexivity|].

(** Two documents that differ in the way the order is written, in the domain
    and in the problem; both are accepted. *)
Definition long1 := in_order ["t"; "a"; "b"].
Definition long2 := by_constraints "(i (t)) (j (a)) (k (b))" "(< j k) (< i j)".
Definition net1 := tn_prob ":ordered-subtasks (and (t) (a))".
Definition net2 := tn_prob ":subtasks (and (x (t)) (y (a))) :ordering (< x y)".
Example C71_example : exists d d' p p',
  @parse uni0 300 long1 = Ok (ADomain d) /\ @parse uni0 300 long2 = Ok (ADomain d') /\ domain_rel spelled_out d d' /\ distinct_names d
  /\ @parse uni0 300 net1 = Ok (AProblem p) /\ @parse uni0 300 net2 = Ok (AProblem p') /\ problem_rel spelled_out p p'
  /\ @verify uni0 env_id 300 long1 (Some net1) = Ok [] /\ @verify uni0 env_id 300 long2 (Some net2) = Ok []
  /\ meta long1 = Some (GrowingEmptyPrefix [("t", "m"); ("t", "m")], []) /\ meta long2 = meta long1.
Proof.
  destruct (is_ok_ex (@parse uni0 300 long1)) as ([d|p] & E); [vm_compute; reflexivity| |vm_compute in E; discriminate].
  destruct (is_ok_ex (@parse uni0 300 long2)) as ([d'|p] & E'); [vm_compute; reflexivity| |vm_compute in E'; discriminate].
  destruct (is_ok_ex (@parse uni0 300 net1)) as ([dd|p] & Ep); [vm_compute; reflexivity|vm_compute in Ep; discriminate|].
  destruct (is_ok_ex (@parse uni0 300 net2)) as ([dd|p'] & Ep'); [vm_compute; reflexivity|vm_compute in Ep'; discriminate|].
  exists d, d', p, p'. split; auto. split; auto.
  pose proof Ep as Eq. pose proof Ep' as Eq'. vm_compute in E, E', Eq, Eq'. injection E as <-. injection E' as <-. injection Eq as <-. injection Eq' as <-.
  split.
  { unfold domain_rel. cbn. repeat (split; [reflexivity|]). constructor; [|constructor]. unfold method_rel. cbn. repeat (split; [reflexivity|]).
    spelled ["i"; "j"; "k"]. cbn. apply perm_swap. }
  split; [unfold distinct_names; cbn; nodup|].
  split; [exact Ep|]. split; [exact Ep'|]. split.
  { unfold problem_rel. cbn. repeat (split; [reflexivity|]). constructor. cbn. split; [reflexivity|].
    spelled ["x"; "y"]. cbn. apply Permutation_refl. }
  split; [vm_compute; reflexivity|]. split; [vm_compute; reflexivity|]. split; vm_compute; reflexivity.
Qed.

(** The class of recursion may rise: what comes before the recursive task is
    ignored once the order is written out. *)
Theorem C71_class_rises_refuted : exists d d',
  @parse uni0 300 (in_order ["a"; "t"]) = Ok (ADomain d)
  /\ @parse uni0 300 (by_constraints "(i (a)) (j (t))" "(< i j)") = Ok (ADomain d') /\ domain_rel spelled_out d d'
  /\ meta (in_order ["a"; "t"]) = Some (Recursive [("t", "m"); ("t", "m")], [])
  /\ meta (by_constraints "(i (a)) (j (t))" "(< i j)") = Some (EmptyRecursion [("t", "m"); ("t", "m")], []).
Proof.
  destruct (is_ok_ex (@parse uni0 300 (in_order ["a"; "t"]))) as ([d|p] & E); [vm_compute; reflexivity| |vm_compute in E; discriminate].
  destruct (is_ok_ex (@parse uni0 300 (by_constraints "(i (a)) (j (t))" "(< i j)"))) as ([d'|p] & E'); [vm_compute; reflexivity| |vm_compute in E'; discriminate].
  exists d, d'. split; auto. split; auto. vm_compute in E, E'. injection E as <-. injection E' as <-. split.
  { unfold domain_rel. cbn. repeat (split; [reflexivity|]). constructor; [|constructor]. unfold method_rel. cbn. repeat (split; [reflexivity|]).
    spelled ["i"; "j"]. cbn. apply Permutation_refl. }
  split; vm_compute; reflexivity.
Qed.

(** It also depends on the identifiers whether there are metadata at all: with
    [i] before [ii] the search never ends. *)
Theorem C71_identifiers_matter_refuted : exists d d',
  @parse uni0 300 (in_order ["t"; "a"]) = Ok (ADomain d)
  /\ @parse uni0 300 (by_constraints "(i (t)) (ii (a))" "(< i ii)") = Ok (ADomain d') /\ domain_rel spelled_out d d'
  /\ meta (in_order ["t"; "a"]) = meta (by_constraints "(i (t)) (k (a))" "(< i k)") /\ meta (in_order ["t"; "a"]) <> None
  /\ forall he, hash_env_ok he -> forall n lf md, @get_metadata uni0 he n lf (by_constraints "(i (t)) (ii (a))" "(< i ii)") <> Ok md.
Proof.
  destruct (is_ok_ex (@parse uni0 300 (in_order ["t"; "a"]))) as ([d|p] & E); [vm_compute; reflexivity| |vm_compute in E; discriminate].
  destruct (is_ok_ex (@parse uni0 300 (by_constraints "(i (t)) (ii (a))" "(< i ii)"))) as ([d'|p] & E'); [vm_compute; reflexivity| |vm_compute in E'; discriminate].
  exists d, d'. split; auto. split; auto. pose proof E as E0. pose proof E' as E0'. vm_compute in E, E'.
  assert (domain_rel spelled_out d d') as Hr.
  { injection E as <-. injection E' as <-. unfold domain_rel. cbn. repeat (split; [reflexivity|]). constructor; [|constructor].
    unfold method_rel. cbn. repeat (split; [reflexivity|]). spelled ["i"; "ii"]. cbn. apply Permutation_refl. }
  split; auto. split; [vm_compute; reflexivity|]. split; [vm_compute; discriminate|].
  intros he Hhe n lf md Em.
  destruct (proj1 (@C71_delivered_iff uni0 he Hhe 300 _ _ d d' E0 E0' ltac:(injection E as <-; unfold distinct_names; cbn; nodup) Hr)) as [_ Hc]; [eauto|].
  injection E' as <-. match goal with H : context [simple_cycle ?dd] |- _ => set (D := dd) in * end.
  assert (exists m, d_methods D = [m]) as (m & Em1) by (eexists; reflexivity).
  refine (Hc [m] m "t" "i" "ii" "i" [("i", "ii")] _ _ _ _ _ _ _); unfold D in Em1; cbn in Em1; injection Em1 as <-.
  - split; [discriminate|]. split; [intros x [<-|[]]; left; reflexivity|]. split; [constructor; [intros []|constructor]|].
    repeat constructor.
  - left. reflexivity.
  - reflexivity.
  - eexists. split; [left; reflexivity|]. split; reflexivity.
  - left. reflexivity.
  - eexists. split; [left; reflexivity|]. split; reflexivity.
  - exists "i", "". reflexivity.
Qed.
(** A constraint that follows from the others makes the metadata command crash. *)
Theorem C71_redundant_refuted :
  meta (by_constraints "(i (t)) (j (a)) (k (b))" "(< i j) (< j k)") <> None
  /\ @get_metadata uni0 env_id 300 300 (by_constraints "(i (t)) (j (a)) (k (b))" "(< i j) (< j k) (< i k)") = Panic PanicAssert
  /\ @verify uni0 env_id 300 (by_constraints "(i (t)) (j (a)) (k (b))" "(< i j) (< j k) (< i k)") None = Ok [].
Proof. split; [vm_compute; discriminate|]. split; vm_compute; reflexivity. Qed.

Definition all_C71 := (@C71_any_order, C71_same_meaning, @C71_spelled_out, @C71_nullables, @C71_class, @C71_delivered_iff,
  C71_class_rises_refuted, C71_identifiers_matter_refuted, C71_redundant_refuted).
