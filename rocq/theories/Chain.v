(** Orders written as constraints (lemmas for C71). *)
From Coq Require Import String Ascii NArith Bool List Lia PeanoNat Permutation Relations.
From Verif Require Import Base Token Lexer Errors Ast Parser Graph Semantic Tdg Api StrFacts AstRel VerifyTop TdgTop SemProofs
  SpecSem SemDomain SpecTdg SpecRec SpecOrder SpecExec SpecShape Shape SpecChain.
Import ListNotations.
Open Scope list_scope.
Open Scope nat_scope.
Open Scope outcome_scope.

(** ** Verification *)
Lemma orderly_verify a : order_acyclic (htn_orderings a) -> verify_ordering a = Ok tt.
Proof. apply ordering_ok. Qed.
Lemma same_calls_each (f : symbol -> list symbol -> outcome unit) a b : same_calls a b ->
  for_each (fun s => f (sub_task s) (sub_terms s)) (htn_subtasks a) = for_each (fun s => f (sub_task s) (sub_terms s)) (htn_subtasks b).
Proof. unfold same_calls. induction 1 as [|s s' l l' [E1 E2] _ IH]; simpl; auto. rewrite E1, E2, IH. reflexivity. Qed.
Lemma same_calls_names a b : same_calls a b ->
  map (fun s => sym_name (sub_task s)) (htn_subtasks a) = map (fun s => sym_name (sub_task s)) (htn_subtasks b).
Proof. unfold same_calls. induction 1 as [|s s' l l' [E1 E2] _ IH]; simpl; auto. rewrite E1, IH. reflexivity. Qed.

Section Domain.
Variables d d' : domain_ast.
Hypothesis Hd : domain_rel both_orderly d d'.
Lemma rel_verify_formula ps f : verify_formula d ps f = verify_formula d' ps f.
Proof. destruct Hd as (Ht & Hc & _ & Hp & _). unfold verify_formula, declared_constants. rewrite Ht, Hc, Hp. reflexivity. Qed.
Lemma rel_verify_method m m' : method_rel both_orderly m m' -> verify_method d m = verify_method d' m'.
Proof.
  intros (E1 & E2 & E3 & E4 & E5 & Hs & Ho & Ho'). unfold verify_method, verify_method_task.
  rewrite (orderly_verify _ Ho), (orderly_verify _ Ho').
  rewrite rel_verify_formula. destruct Hd as (Ht & Hc & _ & _ & Htk & Ha & _). unfold declared_constants.
  rewrite E2, E3, E4, E5, Ht, Hc, Htk, Ha.
  rewrite (same_calls_each (fun t ts => is_task_consistent (d_types d') t ts (m_params m') _ (d_tasks d') (d_actions d')) _ _ Hs). reflexivity.
Qed.
Lemma rel_fresh {A} mk (name : A -> string) p (R : A -> A -> Prop) (body body' : A -> outcome unit) :
  (forall x y, R x y -> name x = name y /\ p x = p y /\ body x = body' y) ->
  forall l l', Forall2 R l l' -> forall b b', map (fun y => (name y, p y)) b = map (fun y => (name y, p y)) b' ->
  each_fresh mk name p (fun _ => body) b l = each_fresh mk name p (fun _ => body') b' l'.
Proof.
  intros HR l l' Hl. induction Hl as [|x y l l' Hx Hl IH]; intros b b' Hb; simpl; auto.
  destruct (HR x y Hx) as (E1 & E2 & Hv). rewrite Hb, E1, E2, Hv. do 2 (apply bind_eq; auto; intros _).
  apply IH. rewrite !map_app, Hb. simpl. rewrite E1, E2. reflexivity.
Qed.
Lemma rel_check_domain : check_domain d = check_domain d'.
Proof.
  pose proof Hd as (Ht & Hc & Hr & Hp & Htk & Ha & Hm). unfold check_domain, verify_predicates, verify_compound_tasks. rewrite Ht, Hr, Hp, Htk, Ha.
  do 4 (apply bind_eq; auto; intros _).
  apply bind_eq; [|intros _].
  - apply (rel_fresh DuplicateAction act_name act_pos eq).
    + intros x y <-. repeat split; auto. unfold verify_action. rewrite !rel_verify_formula. reflexivity.
    + clear. induction (d_actions d'); constructor; auto.
    + reflexivity.
  - apply (rel_fresh DuplicateMethod (fun m => sym_name (m_name m)) (fun m => sym_pos (m_name m)) (method_rel both_orderly)); auto.
    intros x y Hxy. pose proof Hxy as (E1 & _). rewrite E1. repeat split; auto. apply rel_verify_method; auto.
Qed.
End Domain.

(** ** Graphs *)
Section Graph.
Variables d d' : domain_ast.
Hypothesis Hd : domain_rel same_calls d d'.
Lemma rel_task_list : task_list d = task_list d'.
Proof. destruct Hd as (_ & _ & _ & _ & Htk & Ha & _). unfold task_list. rewrite Htk, Ha. reflexivity. Qed.
Lemma rel_tdg : (exists g g', tdg_new d = Ok g /\ tdg_new d' = Ok g' /\ like_graph g g') \/ tdg_new d = tdg_new d' /\ forall g, tdg_new d <> Ok g.
Proof.
  unfold tdg_new. rewrite rel_task_list. set (T := task_list d'). destruct Hd as (_ & _ & _ & _ & _ & _ & Hm).
  assert (map (fun m => index_last (sym_name (m_task m)) T) (d_methods d) = map (fun m => index_last (sym_name (m_task m)) T) (d_methods d')) as ->.
  { clear Hd. induction Hm as [|m m' l l' (_ & E & _) _ IH]; simpl; auto. rewrite E, IH. reflexivity. }
  destruct (all_some _) as [heads| | |]; cbn [obind]; [|right; split; [auto|discriminate]..].
  set (each := fix each (ms : list method) : outcome (list (list nat)) :=
            match ms with
            | [] => Ok []
            | m :: ms' =>
              ids <-- all_some (map (fun s => index_last (sym_name (sub_task s)) T) (htn_subtasks (m_tn m))) ;;
              r <-- each ms' ;; Ok (of_list_nat ids :: r)
            end).
  assert (each (d_methods d) = each (d_methods d')) as ->.
  { clear Hd. induction Hm as [|m m' l l' (_ & _ & _ & _ & _ & Hs) _ IH]; auto. simpl.
    assert (map (fun s => index_last (sym_name (sub_task s)) T) (htn_subtasks (m_tn m)) = map (fun s => index_last (sym_name (sub_task s)) T) (htn_subtasks (m_tn m'))) as ->.
    { unfold same_calls in Hs. clear -Hs. induction Hs as [|s s' l l' [E _] _ IH]; simpl; auto. rewrite E, IH. reflexivity. }
    rewrite IH. reflexivity. }
  destruct (each (d_methods d')) as [to| | |]; cbn [obind]; [|right; split; [auto|discriminate]..].
  left. do 2 eexists. split; [reflexivity|]. split; [reflexivity|]. repeat split.
Qed.
Lemma lg_refinement he n g g' ts : like_graph g g' -> refinement_warnings he n g ts = refinement_warnings he n g' ts.
Proof. intros Hg. induction ts as [|t ts IH]; simpl; auto. rewrite (lg_reachable he g g' Hg), IH. reflexivity. Qed.
Lemma rel_methods_length : length (d_methods d) = length (d_methods d').
Proof. destruct Hd as (_ & _ & _ & _ & _ & _ & Hm). clear Hd. induction Hm; simpl; auto. Qed.
Lemma rel_metadata he n lf md md' : domain_metadata he n lf d = Ok md -> domain_metadata he n lf d' = Ok md' ->
  md_nullables md = md_nullables md' /\ md_actions md = md_actions md' /\ md_tasks md = md_tasks md' /\ md_methods md = md_methods md'.
Proof.
  unfold domain_metadata. intros E E'. destruct rel_tdg as [(g & g' & Eg & Eg' & Hg)|[_ E2]].
  - rewrite Eg in E. rewrite Eg' in E'. cbn [obind] in E, E'.
    rewrite (lg_nullables he g g' Hg) in E. destruct (compute_nullables he n g') as [nulls| | |]; try discriminate. cbn [obind] in E, E'.
    apply bind_ok in E as (r & _ & E). apply bind_ok in E' as (r' & _ & E'). injection E as <-. injection E' as <-. simpl.
    pose proof rel_methods_length. destruct Hd as (_ & _ & _ & _ & -> & -> & _). auto.
  - apply bind_ok in E as (g & Eg & _). exfalso. eapply E2; eauto.
Qed.
End Graph.
Lemma domain_rel_weaken (R R' : htn -> htn -> Prop) d d' : (forall a b, R a b -> R' a b) -> domain_rel R d d' -> domain_rel R' d d'.
Proof.
  intros Hr (H1 & H2 & H3 & H4 & H5 & H6 & Hm). repeat (split; [assumption|]). clear -Hr Hm.
  induction Hm as [|m m' l l' (E1 & E2 & E3 & E4 & E5 & E6) _ IH]; constructor; auto. repeat (split; [assumption|]). auto.
Qed.
Lemma problem_rel_weaken (R R' : htn -> htn -> Prop) p p' : (forall a b, R a b -> R' a b) -> problem_rel R p p' -> problem_rel R' p p'.
Proof.
  intros Hr (H1 & H2 & H3 & Ht). repeat (split; [assumption|]). destruct Ht as [|t t' [E Ht]]; constructor. auto.
Qed.
Lemma rel_verify_domain he n d d' : domain_rel both_orderly d d' -> verify_domain he n d = verify_domain he n d'.
Proof.
  intros Hd. assert (domain_rel same_calls d d') as Hs. { eapply domain_rel_weaken; [|exact Hd]. intros a b Hab. apply Hab. }
  unfold verify_domain. rewrite (rel_check_domain d d' Hd). apply bind_eq; auto. intros _.
  destruct (rel_tdg d d' Hs) as [(g & g' & -> & -> & Hg)|[E1 E2]].
  - cbn [obind]. destruct Hd as (Ht & Hc & _ & Hp & Htk & Ha & _). unfold declared_constants. rewrite Ht, Hc, Hp, Htk, Ha.
    rewrite (lg_refinement he n g g' _ Hg). reflexivity.
  - rewrite <- E1. destruct (tdg_new d) as [g| | |]; simpl; auto. exfalso. eapply E2; eauto.
Qed.
Lemma rel_verify_problem tb p p' : problem_rel both_orderly p p' -> verify_problem tb p = verify_problem tb p'.
Proof.
  intros (E1 & E2 & E3 & Ht). unfold verify_problem. rewrite E1, E2, E3. do 3 (apply bind_eq; auto; intros _).
  apply bind_eq; auto. destruct Ht as [|t t' [Ep (Hs & Ho & Ho')]]; auto. rewrite (orderly_verify _ Ho), (orderly_verify _ Ho'), Ep. simpl.
  unfold same_calls in Hs. clear -Hs. induction Hs as [|s s' l l' [Ea Eb] _ IH]; simpl; auto.
  unfold check_subtask_instantiation in *. rewrite Ea, Eb. apply bind_eq; auto.
Qed.

(** ** Chains *)
Notation reach_in l := (clos_trans string (SpecSem.before l)).
Lemma chain_in ids : forall a b, In (a, b) (chain ids) <-> exists i, nth_error ids i = Some a /\ nth_error ids (S i) = Some b.
Proof.
  induction ids as [|x [|y r] IH]; intros a b.
  - simpl. split; [tauto|]. intros ([|i] & H & _); discriminate.
  - simpl. split; [tauto|]. intros ([|[|i]] & _ & H); discriminate.
  - change (chain (x :: y :: r)) with ((x, y) :: chain (y :: r)). simpl In. rewrite IH. split.
    + intros [[= -> ->]|(i & H1 & H2)]; [exists 0; auto|exists (S i); auto].
    + intros ([|i] & H1 & H2); [left; simpl in *; congruence|right; exists i; auto].
Qed.
Lemma nodup_nth {A} (l : list A) i j x : NoDup l -> nth_error l i = Some x -> nth_error l j = Some x -> i = j.
Proof.
  intros Hn Hi Hj. apply (proj1 (NoDup_nth_error l) Hn); [|congruence]. apply nth_error_Some. congruence.
Qed.
Lemma chain_trans ids l : NoDup ids -> Permutation l (chain ids) -> forall a b,
  reach_in l a b <-> exists i j, i < j /\ nth_error ids i = Some a /\ nth_error ids j = Some b.
Proof.
  intros Hn Hp a b. split.
  - induction 1 as [a b H|a b c _ (i & j & Hij & Ha & Hb) _ (i' & j' & Hij' & Hb' & Hc)].
    + apply (Permutation_in _ Hp) in H. apply chain_in in H as (i & H1 & H2). exists i, (S i). auto.
    + rewrite (nodup_nth ids i' j b Hn Hb' Hb) in Hij'. exists i, j'. split; [lia|auto].
  - intros (i & j & Hij & Ha & Hb).
    assert (forall k i a b, nth_error ids i = Some a -> nth_error ids (S i + k) = Some b -> reach_in l a b) as Hk.
    { clear -Hp. induction k as [|k IH]; intros i a b Ha Hb.
      - rewrite Nat.add_0_r in Hb. apply t_step. apply (Permutation_in _ (Permutation_sym Hp)). apply chain_in. eauto.
      - destruct (nth_error ids (S i + k)) as [c|] eqn:Ec.
        + eapply t_trans; [apply (IH i a c Ha Ec)|]. apply t_step. apply (Permutation_in _ (Permutation_sym Hp)). apply chain_in. exists (S i + k).
          split; auto. rewrite <- Hb. f_equal. lia.
        + apply nth_error_None in Ec. assert (nth_error ids (S i + S k) <> None) as Hx by congruence. apply nth_error_Some in Hx. lia. }
    apply (Hk (j - S i) i); auto. rewrite <- Hb. f_equal. lia.
Qed.
Lemma chain_acyclic ids l : NoDup ids -> Permutation l (chain ids) -> order_acyclic (Partial l).
Proof.
  intros Hn Hp a Ha. apply (chain_trans ids l Hn Hp) in Ha as (i & j & Hij & H1 & H2). pose proof (nodup_nth _ _ _ _ Hn H1 H2). lia.
Qed.
Lemma chain_length ids : ids <> [] -> S (length (chain ids)) = length ids.
Proof. induction ids as [|x [|y r] IH]; [congruence|auto|]. intros _. change (chain (x :: y :: r)) with ((x, y) :: chain (y :: r)). simpl length in *. rewrite IH; auto. discriminate. Qed.

Lemma spelled_orderly a b : spelled_out a b -> both_orderly a b.
Proof.
  intros (Et & Hs & ids & l & _ & Hn & El & Hp). split; auto. rewrite Et, El. split; [exact I|]. eapply chain_acyclic; eauto.
Qed.

Lemma ids_nth b ids i : map id_of (htn_subtasks b) = map Some ids ->
  forall x, nth_error (htn_subtasks b) i = Some x -> exists k, sub_id x = Some k /\ nth_error ids i = Some (sym_name k).
Proof.
  intros E x Hx. assert (nth_error (map id_of (htn_subtasks b)) i = Some (id_of x)) as H1 by (rewrite nth_error_map, Hx; auto).
  rewrite E, nth_error_map in H1. destruct (nth_error ids i) as [n|]; [|discriminate]. simpl in H1. injection H1 as H1.
  unfold id_of in H1. destruct (sub_id x) as [k|]; [|discriminate]. simpl in H1. injection H1 as ->. eauto.
Qed.
(** The two networks mean the same. *)
Lemma spelled_ordered a b : spelled_out a b -> forall i j, ordered_at a i j <-> ordered_at b i j.
Proof.
  intros (Et & Hs & ids & l & Ei & Hn & El & Hp) i j. unfold ordered_at. rewrite Et, El.
  assert (length (htn_subtasks a) = length (htn_subtasks b)) as Hl. { unfold same_calls in Hs. clear -Hs. induction Hs; simpl; auto. }
  rewrite Hl. split.
  - intros [Hij Hj].
    destruct (nth_error (htn_subtasks b) i) as [x|] eqn:Ex; [|apply nth_error_None in Ex; lia].
    destruct (nth_error (htn_subtasks b) j) as [y|] eqn:Ey; [|apply nth_error_None in Ey; lia].
    destruct (ids_nth b ids i Ei x Ex) as (p & Ep & Hpn). destruct (ids_nth b ids j Ei y Ey) as (q & Eq & Hqn).
    exists x, y, p, q. split; [reflexivity|]. split; [reflexivity|]. split; auto. split; auto. apply (chain_trans ids l Hn Hp). eauto.
  - intros (x & y & p & q & Ex & Ey & Ep & Eq & Hpq).
    destruct (ids_nth b ids i Ei x Ex) as (p' & Ep' & Hpn). destruct (ids_nth b ids j Ei y Ey) as (q' & Eq' & Hqn).
    rewrite Ep in Ep'. injection Ep' as <-. rewrite Eq in Eq'. injection Eq' as <-.
    apply (chain_trans ids l Hn Hp) in Hpq as (i' & j' & Hij & H1 & H2).
    rewrite (nodup_nth ids _ _ _ Hn Hpn H1), (nodup_nth ids _ _ _ Hn Hqn H2). split; auto.
    rewrite <- (map_length id_of), Ei, map_length. apply nth_error_Some. congruence.
Qed.

(** ** Cycles *)
Lemma after_spec x : forall l y, In y (after x l) <-> exists i j, i < j /\ nth_error l i = Some x /\ nth_error l j = Some y.
Proof.
  induction l as [|z l IH]; intros y; simpl.
  - split; [tauto|]. intros (i & j & _ & H & _). destruct i; discriminate.
  - destruct (String.eqb_spec z x) as [->|Hne].
    + split.
      * intros Hy. apply In_nth_error in Hy as (j & Hj). exists 0, (S j). split; [lia|auto].
      * intros (i & j & Hij & _ & Hj). destruct j as [|j]; [lia|]. simpl in Hj. eapply nth_error_In; eauto.
    + rewrite IH. split.
      * intros (i & j & Hij & Hi & Hj). exists (S i), (S j). split; [lia|auto].
      * intros ([|i] & j & Hij & Hi & Hj); [simpl in Hi; congruence|]. destruct j as [|j]; [lia|]. exists i, j. split; [lia|auto].
Qed.
Lemma denotes_unique b ids : map id_of (htn_subtasks (m_tn b)) = map Some ids -> NoDup ids -> forall i y,
  denotes b i y <-> exists k s, nth_error (htn_subtasks (m_tn b)) k = Some s /\ nth_error ids k = Some i /\ sym_name (sub_task s) = y.
Proof.
  intros Ei Hn i y. split.
  - intros (l1 & s & l2 & El & Es & Ey & _). exists (length l1), s.
    assert (nth_error (htn_subtasks (m_tn b)) (length l1) = Some s) as Hs. { rewrite El, nth_error_app2, Nat.sub_diag; auto. }
    split; auto. split; auto. destruct (ids_nth _ ids _ Ei s Hs) as (k & Ek & Hk). unfold id_of in Es. rewrite Ek in Es. simpl in Es. congruence.
  - intros (k & s & Hs & Hk & Ey). pose proof (nth_error_split _ _ Hs) as (l1 & l2 & El & Hl). exists l1, s, l2. split; auto.
    destruct (ids_nth _ ids _ Ei s Hs) as (q & Eq & Hq). split; [unfold id_of; rewrite Eq; simpl; congruence|]. split; auto.
    apply Forall_forall. intros s' Hs'. apply In_nth_error in Hs' as (j & Hj).
    assert (nth_error (htn_subtasks (m_tn b)) (length l1 + S j) = Some s') as Hj'.
    { rewrite El, nth_error_app2 by lia. replace (length l1 + S j - length l1) with (S j) by lia. auto. }
    destruct (ids_nth _ ids _ Ei s' Hj') as (q' & Eq' & Hq'). unfold id_of. rewrite Eq'. simpl. intros [= E].
    rewrite E in Hq'. pose proof (nodup_nth _ _ _ _ Hn Hk Hq'). lia.
Qed.
Lemma nth_names m i x : nth_error (subtask_names m) i = Some x <-> exists s, nth_error (htn_subtasks (m_tn m)) i = Some s /\ sym_name (sub_task s) = x.
Proof.
  unfold subtask_names. rewrite nth_error_map. destruct (nth_error _ i) as [s|]; simpl; split.
  - intros [= <-]. eauto.
  - intros (s' & [= <-] & <-). auto.
  - discriminate.
  - intros (s' & H & _). discriminate.
Qed.
Lemma rel_names m m' : same_calls (m_tn m) (m_tn m') -> subtask_names m = subtask_names m'.
Proof. apply same_calls_names. Qed.
Lemma spelled_follows m m' x y : spelled_out (m_tn m) (m_tn m') -> (follows m x y <-> follows m' x y).
Proof.
  intros (Et & Hs & ids & l & Ei & Hn & El & Hp). unfold follows. rewrite Et, El. rewrite after_spec, (rel_names _ _ Hs). split.
  - intros (i & j & Hij & Hi & Hj). apply nth_names in Hi as (s & Hi & Ex). apply nth_names in Hj as (t & Hj & Ey).
    destruct (ids_nth _ ids _ Ei s Hi) as (p & Ep & Hpn). destruct (ids_nth _ ids _ Ei t Hj) as (q & Eq & Hqn).
    exists (sym_name p), (sym_name q). split.
    + exists s. split; [eapply nth_error_In; eauto|]. unfold id_of. rewrite Ep. auto.
    + split; [apply (chain_trans ids l Hn Hp); eauto|]. apply (denotes_unique _ ids Ei Hn). eauto.
  - intros (i & j & (s & Hs1 & Es & Ex) & Hij & Hd). apply In_nth_error in Hs1 as (k & Hk).
    apply (chain_trans ids l Hn Hp) in Hij as (a & b & Hab & Ha & Hb).
    apply (denotes_unique _ ids Ei Hn) in Hd as (q & t & Hq & Hqn & Ey).
    destruct (ids_nth _ ids _ Ei s Hk) as (p & Ep & Hpn). unfold id_of in Es. rewrite Ep in Es. simpl in Es. injection Es as Es. rewrite Es in Hpn.
    exists k, q. split; [rewrite (nodup_nth _ _ _ _ Hn Hpn Ha), (nodup_nth _ _ _ _ Hn Hqn Hb); auto|]. split; apply nth_names; eauto.
Qed.
Lemma same_follows m m' x y : same_or_spelled_out (m_tn m) (m_tn m') -> (follows m x y <-> follows m' x y).
Proof.
  intros [E|Hs]; [|apply spelled_follows; auto]. unfold follows, denotes, subtask_names. rewrite E. tauto.
Qed.
Lemma spelled_same a b : same_or_spelled_out a b -> same_calls a b.
Proof.
  intros [<-|(_ & H & _)]; auto. unfold same_calls. induction (htn_subtasks a); constructor; auto. split; auto.
Qed.

Section Cycles.
Variables d d' : domain_ast.
Hypothesis Hd : domain_rel same_or_spelled_out d d'.
Notation mrel := (method_rel same_or_spelled_out).
Lemma rel_head m m' : mrel m m' -> head m = head m'.
Proof. intros (_ & E & _). unfold head. rewrite E. auto. Qed.
Lemma rel_links start ms ms' : Forall2 mrel ms ms' ->
  Forall2 (fun l l' => mrel (fst l) (fst l') /\ snd l = snd l') (links start ms) (links start ms').
Proof.
  induction 1 as [|m m' ms ms' Hm Hms IH]; simpl; constructor; auto. simpl. split; auto.
  destruct Hms as [|n n' ms ms' Hn _]; auto. apply rel_head; auto.
Qed.
Lemma rel_cycle_links ms ms' : Forall2 mrel ms ms' ->
  Forall2 (fun l l' => mrel (fst l) (fst l') /\ snd l = snd l') (cycle_links ms) (cycle_links ms').
Proof.
  intros Hms. destruct Hms as [|m m' ms ms' Hm Hms]; [constructor|]. unfold cycle_links. rewrite (rel_head _ _ Hm). apply rel_links. constructor; auto.
Qed.
Lemma incl_rel {A B} (R : A -> B -> Prop) L L' : Forall2 R L L' -> forall ms, incl ms L -> exists ms', Forall2 R ms ms' /\ incl ms' L'.
Proof.
  intros HL ms. induction ms as [|m ms IH]; intros Hi.
  - exists []. split; [constructor|intros x []].
  - destruct IH as (ms' & H1 & H2). { intros x Hx. apply Hi. right; auto. }
    assert (exists m', R m m' /\ In m' L') as (m' & Hm & Hm').
    { assert (In m L) as Hin by (apply Hi; left; auto). clear -HL Hin. induction HL as [|a b L L' Hab _ IH]; [destruct Hin|].
      destruct Hin as [->|Hin]; [exists b; split; auto; left; auto|]. destruct (IH Hin) as (m' & H1 & H2). exists m'. split; auto. right; auto. }
    exists (m' :: ms'). split; [constructor; auto|]. intros x [<-|Hx]; auto.
Qed.
Lemma heads_rel ms ms' : Forall2 mrel ms ms' -> map head ms = map head ms'.
Proof. induction 1 as [|m m' l l' Hm _ IH]; simpl; auto. rewrite (rel_head _ _ Hm), IH. auto. Qed.
Lemma cycle_transfer ms ms' : Forall2 mrel ms ms' -> incl ms' (d_methods d') -> simple_cycle d ms -> simple_cycle d' ms'.
Proof.
  intros Hms Hi (Hne & _ & Hn & Hl). split; [|split; auto; split].
  - intros ->. inversion Hms; subst. auto.
  - rewrite <- (heads_rel _ _ Hms). auto.
  - pose proof (rel_cycle_links _ _ Hms) as Hr. clear -Hr Hl. induction Hr as [|[m x] [m' x'] l l' [Hm E] _ IH]; [constructor|].
    simpl in *. inversion Hl as [|? ? H1 H2]; subst. constructor; auto. simpl in *. destruct Hm as (_ & _ & _ & _ & _ & Hm).
    rewrite <- (rel_names _ _ (spelled_same _ _ Hm)). auto.
Qed.
Lemma cycle_transfer_back ms ms' : Forall2 mrel ms ms' -> incl ms (d_methods d) -> simple_cycle d' ms' -> simple_cycle d ms.
Proof.
  intros Hms Hi (Hne & _ & Hn & Hl). split; [|split; auto; split].
  - intros ->. inversion Hms; subst. auto.
  - rewrite (heads_rel _ _ Hms). auto.
  - pose proof (rel_cycle_links _ _ Hms) as Hr. clear -Hr Hl. induction Hr as [|[m x] [m' x'] l l' [Hm E] _ IH]; [constructor|].
    simpl in *. inversion Hl as [|? ? H1 H2]; subst. constructor; auto. simpl in *. destruct Hm as (_ & _ & _ & _ & _ & Hm).
    rewrite (rel_names _ _ (spelled_same _ _ Hm)). auto.
Qed.
Lemma cycle_there ms : simple_cycle d ms -> exists ms', Forall2 mrel ms ms' /\ simple_cycle d' ms'.
Proof.
  intros Hc. pose proof Hc as (_ & Hi & _). destruct Hd as (_ & _ & _ & _ & _ & _ & Hm).
  destruct (incl_rel _ _ _ Hm ms Hi) as (ms' & H1 & H2). exists ms'. split; auto. eapply cycle_transfer; eauto.
Qed.
Lemma f2_flip {A B} (R : A -> B -> Prop) l l' : Forall2 R l l' -> Forall2 (fun b a => R a b) l' l.
Proof. induction 1; constructor; auto. Qed.
Lemma cycle_back ms' : simple_cycle d' ms' -> exists ms, Forall2 mrel ms ms' /\ simple_cycle d ms.
Proof.
  intros Hc. pose proof Hc as (_ & Hi & _). destruct Hd as (_ & _ & _ & _ & _ & _ & Hm).
  destruct (incl_rel _ _ _ (f2_flip _ _ _ Hm) ms' Hi) as (ms & H1 & H2). exists ms. apply f2_flip in H1. split; auto.
  eapply cycle_transfer_back; eauto.
Qed.

Lemma rel_trails ms ms' y : Forall2 mrel ms ms' -> (trails ms y <-> trails ms' y).
Proof.
  intros Hms. pose proof (rel_cycle_links _ _ Hms) as Hr. unfold trails. clear Hms.
  induction Hr as [|[m x] [m' x'] l l' [Hm E] _ IH]; [split; intros (k & [] & _)|]. simpl in Hm, E. subst x'.
  destruct Hm as (_ & _ & _ & _ & _ & Hm). pose proof (same_follows _ _ x y Hm) as Hf. split.
  - intros (k & [<-|Hk] & Hy); [exists (m', x); split; [left; auto|apply Hf; auto]|].
    destruct (proj1 IH (ex_intro _ k (conj Hk Hy))) as (k' & H1 & H2). exists k'. split; [right|]; auto.
  - intros (k & [<-|Hk] & Hy); [exists (m, x); split; [left; auto|apply Hf; auto]|].
    destruct (proj2 IH (ex_intro _ k (conj Hk Hy))) as (k' & H1 & H2). exists k'. split; [right|]; auto.
Qed.
Lemma rel_quiet nulls start m m' x : mrel m m' -> quiet nulls start (m, x) -> quiet nulls start (m', x).
Proof.
  intros (_ & _ & _ & _ & _ & [E|(Et & Hs & ids & l & Ei & Hn & El & Hp)]) Hq.
  - unfold quiet, prefix_names, subtask_names in *. simpl in *. rewrite <- E. auto.
  - right. unfold prefix_names. simpl. rewrite El. constructor.
Qed.
Lemma rel_silent nulls ms ms' : Forall2 mrel ms ms' -> silent nulls ms -> silent nulls ms'.
Proof.
  intros Hms Hq m' E'. pose proof (rel_cycle_links _ _ Hms) as Hr. destruct Hms as [|m m0' ms ms' Hm _]; [discriminate|]. injection E' as <-.
  specialize (Hq m eq_refl). rewrite <- (rel_head _ _ Hm). generalize dependent (head m). intros h Hq.
  revert Hr Hq. generalize (cycle_links (m :: ms)) (cycle_links (m0' :: ms')). clear. intros l l' Hr.
  induction Hr as [|[m x] [m' x'] l l' [Hm E] _ IH]; intros Hq; [constructor|]. simpl in Hm, E. subst x'.
  inversion Hq as [|? ? H1 H2]; subst. constructor; auto. eapply rel_quiet; eauto.
Qed.
Lemma rel_class nulls ms ms' k k' : Forall2 mrel ms ms' -> cycle_class nulls ms k -> cycle_class nulls ms' k' -> k <= k' /\ (1 < k -> k = k').
Proof.
  intros Hms Hk Hk'. pose proof (rel_silent nulls _ _ Hms) as Hsil. pose proof (fun y => rel_trails _ _ y Hms) as Htr.
  destruct Hk as [Hn|y Hs Hy Hny|Hs Hno|y Hs Hy Hall].
  - split; [|lia]. destruct Hk'; lia.
  - destruct Hk' as [Hn'|z Hs' Hz Hnz|Hs' Hno'|z Hs' Hz Hall']; [tauto|auto|exfalso; apply (Hno' y), Htr; auto|exfalso; apply Hny, Hall', Htr; auto].
  - destruct Hk' as [Hn'|z Hs' Hz Hnz|Hs' Hno'|z Hs' Hz Hall']; [tauto|exfalso; apply (Hno z), Htr; auto|auto|exfalso; apply (Hno z), Htr; auto].
  - destruct Hk' as [Hn'|z Hs' Hz Hnz|Hs' Hno'|z Hs' Hz Hall']; [tauto|exfalso; apply Hnz, Hall, Htr; auto|exfalso; apply (Hno' y), Htr; auto|auto].
Qed.

(** Whether the metadata are delivered. *)
Lemma spelled_usable m m' x : spelled_out (m_tn m) (m_tn m') -> In x (subtask_names m') ->
  (usable m' x <-> forall i j o l, htn_orderings (m_tn m') = Partial l -> occurs m' x i -> In (i, j) l -> occurs m' x o -> ~ contains j o).
Proof.
  intros (Et & Hs & ids & l & Ei & Hn & El & Hp) Hx. unfold usable. rewrite El. split.
  - intros (_ & Hc & _) i j o l' [= <-]. apply Hc.
  - intros Hc. split; [|split; [intros i j o; apply Hc; auto|]].
    + rewrite (Permutation_length Hp). rewrite <- (map_length id_of (htn_subtasks (m_tn m'))), Ei, map_length. apply chain_length.
      intros ->. unfold subtask_names in Hx. destruct (htn_subtasks (m_tn m')); [destruct Hx|discriminate].
    + intros i j _ Hij. apply (chain_trans ids l Hn Hp) in Hij as (a & b & Hab & Ha & Hb). split.
      * destruct (nth_error (htn_subtasks (m_tn m')) b) as [s|] eqn:Es.
        -- exists (sym_name (sub_task s)). apply (denotes_unique _ ids Ei Hn). eauto.
        -- apply nth_error_None in Es. assert (nth_error ids b <> None) as Hx' by congruence. apply nth_error_Some in Hx'.
           rewrite <- (map_length id_of), Ei, map_length in Es. lia.
      * apply (chain_acyclic ids l Hn Hp).
Qed.
End Cycles.
