(** What the analyses look at (lemmas for C67): the decomposition graph and the
    metadata depend on the structure of the domain only, the checks on formulas
    depend on their atoms only. *)
From Coq Require Import String Ascii NArith Bool List Lia PeanoNat Permutation.
From Verif Require Import Base Token Lexer Errors Ast Parser Graph Semantic Tdg Api StrFacts AstRel VerifyTop TdgTop SemProofs SpecShape.
Import ListNotations.
Open Scope list_scope.
Open Scope nat_scope.
Open Scope outcome_scope.

(** ** The graph *)
Definition to_sets (tasks : list (string * bool)) (rows : list method_shape) : outcome (list (list nat)) :=
  (fix each (rows : list method_shape) : outcome (list (list nat)) :=
     match rows with
     | [] => Ok []
     | r :: rows' =>
       ids <-- all_some (map (fun s => index_last (snd s) tasks) (ms_subtasks r)) ;;
       l <-- each rows' ;; Ok (of_list_nat ids :: l)
     end) rows.
Definition edges_of (s : shape) : outcome (list (list nat) * list (list nat)) :=
  let tasks := map (fun t => (t, true)) (sh_tasks s) ++ map (fun a => (a, false)) (sh_actions s) in
  heads <-- all_some (map (fun r => index_last (ms_head r) tasks) (sh_methods s)) ;;
  to <-- to_sets tasks (sh_methods s) ;;
  Ok (map (fun i => positions 0 i heads) (seq 0 (length tasks)), to).
Definition tasks_of (s : shape) : list (string * bool) :=
  map (fun t => (t, true)) (sh_tasks s) ++ map (fun a => (a, false)) (sh_actions s).

Lemma task_list_shape d : task_list d = tasks_of (shape_of d).
Proof. unfold task_list, tasks_of, shape_of. simpl. rewrite !map_map. reflexivity. Qed.
Lemma bind_eq {A B} (a a' : outcome A) (f f' : A -> outcome B) : a = a' -> (forall x, f x = f' x) -> obind a f = obind a' f'.
Proof. intros -> Hf. destruct a'; simpl; auto. Qed.
Lemma tdg_new_shape d :
  tdg_new d = (e <-- edges_of (shape_of d) ;;
               Ok (mkTdg (tasks_of (shape_of d)) (map (fun m => (sym_name (m_name m), m_tn m)) (d_methods d)) (fst e) (snd e))).
Proof.
  unfold tdg_new. rewrite task_list_shape. unfold edges_of. cbv zeta. fold (tasks_of (shape_of d)). set (T := tasks_of (shape_of d)).
  assert (map (fun m => index_last (sym_name (m_task m)) T) (d_methods d) = map (fun r => index_last (ms_head r) T) (sh_methods (shape_of d))) as E.
  { unfold shape_of. simpl. rewrite map_map. reflexivity. }
  rewrite E. destruct (all_some (map (fun r => index_last (ms_head r) T) (sh_methods (shape_of d)))) as [heads| | |] eqn:Eh; cbn [obind]; try reflexivity.
  match goal with |- obind ?a _ = _ => replace a with (to_sets T (sh_methods (shape_of d))) end.
  - destruct (to_sets _ _); reflexivity.
  - clear E Eh. clearbody T. unfold shape_of, to_sets. simpl. induction (d_methods d) as [|m ms IH]; simpl; auto. rewrite map_map. rewrite IH. reflexivity.
Qed.

(** Graphs that differ in nothing the search looks at. *)
Definition like_htn (a b : htn) : Prop := map sub_shape (htn_subtasks a) = map sub_shape (htn_subtasks b) /\ htn_orderings a = htn_orderings b.
Definition like_entry (a b : string * htn) : Prop := fst a = fst b /\ like_htn (snd a) (snd b).
Definition like_tdg (g g' : tdg) : Prop :=
  tg_tasks g = tg_tasks g' /\ tg_from g = tg_from g' /\ tg_to g = tg_to g' /\ Forall2 like_entry (tg_methods g) (tg_methods g').

Lemma tdg_new_like d d' : shape_of d = shape_of d' ->
  (exists g g', tdg_new d = Ok g /\ tdg_new d' = Ok g' /\ like_tdg g g') \/ tdg_new d = tdg_new d' /\ forall g, tdg_new d <> Ok g.
Proof.
  intros E. rewrite !tdg_new_shape, E. destruct (edges_of (shape_of d')) as [[f t]| | |]; simpl; [left|right; split; congruence..].
  do 2 eexists. split; [reflexivity|]. split; [reflexivity|]. split; auto. split; auto. split; auto. simpl.
  apply (f_equal sh_methods) in E. unfold shape_of in E. simpl in E. revert E. generalize (d_methods d').
  induction (d_methods d) as [|m ms IH]; intros [|m' ms'] E; simpl in *; try discriminate; constructor.
  - injection E as E1 E2 E3 E4 E5. split; [exact E1|]. split; [exact E3|exact E4].
  - injection E as _ _ _ _ E. auto.
Qed.

(** Graphs with the same tasks and edges; what methods order does not matter here. *)
Definition like_graph (g g' : tdg) : Prop :=
  tg_tasks g = tg_tasks g' /\ tg_from g = tg_from g' /\ tg_to g = tg_to g'.
Section Core.
Variable he : hash_env.
Variables g g' : tdg.
Hypothesis Hg : like_graph g g'.

Lemma lg_from t : it_methods he g t = it_methods he g' t.
Proof. unfold it_methods, from_set. destruct Hg as (_ & -> & _). reflexivity. Qed.
Lemma lg_to m : to_set g m = to_set g' m.
Proof. unfold to_set. destruct Hg as (_ & _ & ->). reflexivity. Qed.
Lemma lg_tasks m : it_tasks he g m = it_tasks he g' m.
Proof. unfold it_tasks. rewrite lg_to. reflexivity. Qed.
Lemma lg_keys : it_keys he g = it_keys he g'.
Proof. unfold it_keys, tdg_keys. destruct Hg as (-> & _). reflexivity. Qed.
Lemma lg_name i : name_of g i = name_of g' i.
Proof. unfold name_of. destruct Hg as (-> & _). reflexivity. Qed.
Lemma lg_index x : get_task_index g x = get_task_index g' x.
Proof. unfold get_task_index. destruct Hg as (-> & _). reflexivity. Qed.
Lemma lg_indices l : get_task_indices g l = get_task_indices g' l.
Proof. induction l as [|x l IH]; simpl; auto. rewrite lg_index, IH. reflexivity. Qed.

Lemma lg_bfs n : forall q v r, bfs he n g q v r = bfs he n g' q v r.
Proof.
  induction n as [|n IH]; intros [|t q] v r; simpl; auto. rewrite !IH.
  rewrite lg_from. rewrite (flat_map_ext (it_tasks he g) (it_tasks he g') lg_tasks). reflexivity.
Qed.
Lemma fold_left_ext' {A B} (f f' : A -> B -> A) : (forall a b, f a b = f' a b) -> forall l a, fold_left f l a = fold_left f' l a.
Proof. intros Hf l. induction l as [|b l IH]; intros a; simpl; auto. rewrite Hf. auto. Qed.
Lemma existsb_ext' {A} (f f' : A -> bool) l : (forall a, f a = f' a) -> existsb f l = existsb f' l.
Proof. intros Hf. induction l; simpl; auto. rewrite Hf, IHl. reflexivity. Qed.
Lemma lg_null_base : null_base he g = null_base he g'.
Proof.
  unfold null_base. rewrite lg_keys. apply filter_ext. intros t. rewrite lg_from. apply existsb_ext'. intros m. rewrite lg_to. reflexivity.
Qed.
Lemma lg_unit_base : unit_base he g = unit_base he g'.
Proof.
  unfold unit_base. destruct Hg as (Ht & _). rewrite Ht. apply fold_left_ext'. intros a [x []]; simpl; auto.
  destruct (index_first x (tg_tasks g')); auto. rewrite lg_from. f_equal. apply fold_left_ext'. intros b m. rewrite lg_to. reflexivity.
Qed.
Lemma lg_step st : null_step he g st = null_step he g' st.
Proof.
  assert (new_nullables he g st = new_nullables he g' st) as E1.
  { unfold new_nullables. rewrite lg_keys. apply fold_left_ext'. intros a t. rewrite lg_from. erewrite existsb_ext'; [reflexivity|].
    intros m. simpl. rewrite lg_tasks. reflexivity. }
  assert (map (fun cp => (fst cp, snd cp, unit_change he g st (fst cp) (snd cp))) (ns_unit st)
        = map (fun cp => (fst cp, snd cp, unit_change he g' st (fst cp) (snd cp))) (ns_unit st)) as E2.
  { apply map_ext. intros [c p]. f_equal. unfold unit_change. rewrite lg_from. apply fold_left_ext'. intros a m.
    unfold not_nullable. rewrite lg_tasks. reflexivity. }
  unfold null_step. rewrite E1, E2. reflexivity.
Qed.
Lemma lg_loop n : forall st, null_loop he n g st = null_loop he n g' st.
Proof. induction n as [|n IH]; intros st; simpl; auto. rewrite lg_step, IH. reflexivity. Qed.
Lemma lg_nullables n : compute_nullables he n g = compute_nullables he n g'.
Proof.
  unfold compute_nullables, null_init. rewrite lg_null_base, lg_unit_base, lg_loop. apply bind_eq; auto.
  intros l. f_equal. apply fold_left_ext'. intros a i. rewrite lg_name. reflexivity.
Qed.
Lemma lg_reachable n x : reachable he n g x = reachable he n g' x.
Proof.
  unfold reachable. rewrite lg_nullables. destruct Hg as (-> & _). destruct (index_first x _); auto.
  destruct (nth _ _ _) as [y []]; auto. rewrite lg_bfs. reflexivity.
Qed.
Lemma lg_warns n t : warns g he n t = warns g' he n t.
Proof. unfold warns. rewrite lg_reachable. reflexivity. Qed.
End Core.

Section Like.
Variable he : hash_env.
Variables g g' : tdg.
Hypothesis Hg : like_tdg g g'.
Lemma lk_graph : like_graph g g'.
Proof. destruct Hg as (H1 & H2 & H3 & _). repeat split; auto. Qed.
Definition lk_from := lg_from he g g' lk_graph.
Definition lk_tasks := lg_tasks he g g' lk_graph.
Definition lk_keys := lg_keys he g g' lk_graph.
Definition lk_name := lg_name g g' lk_graph.
Definition lk_index := lg_index g g' lk_graph.
Definition lk_indices := lg_indices g g' lk_graph.
Definition lk_nullables := lg_nullables he g g' lk_graph.
Definition lk_reachable := lg_reachable he g g' lk_graph.

(** *** Prefixes and suffixes *)
Lemma lk_entry m dflt : like_entry (nth m (tg_methods g) dflt) (nth m (tg_methods g') dflt).
Proof.
  destruct Hg as (_ & _ & _ & Hm). clear Hg. revert m. induction Hm; intros [|m]; simpl; auto; split; auto; split; reflexivity.
Qed.
Lemma shape_name s s' : sub_shape s = sub_shape s' -> sym_name (sub_task s) = sym_name (sub_task s').
Proof. unfold sub_shape. congruence. Qed.
Lemma shape_id s s' : sub_shape s = sub_shape s' -> option_map sym_name (sub_id s) = option_map sym_name (sub_id s').
Proof. unfold sub_shape. congruence. Qed.
Lemma lk_split x l : forall l', map sub_shape l = map sub_shape l' ->
  match split_at x l, split_at x l' with
  | Some (a, b), Some (a', b') => map sub_shape a = map sub_shape a' /\ map sub_shape b = map sub_shape b'
  | None, None => True
  | _, _ => False
  end.
Proof.
  induction l as [|s l IH]; intros [|s' l'] E; try discriminate; [simpl; auto|].
  assert (sub_shape s = sub_shape s' /\ map sub_shape l = map sub_shape l') as [E1 E2] by (simpl in E; split; congruence).
  cbn [split_at]. rewrite (shape_name _ _ E1). destruct (String.eqb (sym_name (sub_task s')) x); auto.
  specialize (IH l' E2). destruct (split_at x l) as [[a b]|], (split_at x l') as [[a' b']|]; auto. destruct IH as [Ha Hb]. split; auto.
  cbn [map]. rewrite E1, Ha. reflexivity.
Qed.
Lemma names_shape l l' : map sub_shape l = map sub_shape l' -> map (fun s => sym_name (sub_task s)) l = map (fun s => sym_name (sub_task s)) l'.
Proof.
  revert l'. induction l as [|s l IH]; intros [|s' l'] E; try discriminate; auto.
  assert (sub_shape s = sub_shape s' /\ map sub_shape l = map sub_shape l') as [E1 E2] by (simpl in E; split; congruence).
  cbn [map]. rewrite (shape_name _ _ E1), (IH _ E2). reflexivity.
Qed.
Lemma lk_id l l' x : map sub_shape l = map sub_shape l' -> id_to_task l x = id_to_task l' x.
Proof.
  intros E. unfold id_to_task. apply (f_equal (@rev _)) in E. rewrite <- !map_rev in E. revert E. generalize (rev l) (rev l'). clear.
  induction l as [|s l IH]; intros [|s' l'] E; try discriminate; auto.
  assert (sub_shape s = sub_shape s' /\ map sub_shape l = map sub_shape l') as [E1 E2] by (simpl in E; split; congruence).
  cbn [find]. pose proof (shape_id _ _ E1) as Ei. pose proof (shape_name _ _ E1) as En.
  destruct (sub_id s) as [i|], (sub_id s') as [i'|]; try discriminate; simpl in Ei; [injection Ei as ->; destruct (String.eqb _ x)|]; auto.
  rewrite En. reflexivity.
Qed.
Lemma lk_occurrences l l' x : map sub_shape l = map sub_shape l' -> occurrences l x = occurrences l' x.
Proof.
  unfold occurrences. generalize (@nil string). revert l'. induction l as [|s l IH]; intros [|s' l'] acc E; try discriminate; auto.
  assert (sub_shape s = sub_shape s' /\ map sub_shape l = map sub_shape l') as [E1 E2] by (simpl in E; split; congruence).
  cbn [fold_left]. pose proof (shape_id _ _ E1) as Ei. rewrite (shape_name _ _ E1).
  destruct (sub_id s) as [i|], (sub_id s') as [i'|]; try discriminate; simpl in Ei; [injection Ei as ->|]; auto.
Qed.
Lemma lk_prefix_loop l l' ords occ n : map sub_shape l = map sub_shape l' -> forall st p, prefix_loop he n l ords occ st p = prefix_loop he n l' ords occ st p.
Proof.
  intros E. induction n as [|n IH]; intros [|t st] p; simpl; auto. rewrite (lk_id _ _ t E).
  destruct (flat_map _ _); rewrite ?IH; auto. destruct (id_to_task l' t); auto.
Qed.
Lemma lk_map_ids l l' ids : map sub_shape l = map sub_shape l' -> map_ids g l ids = map_ids g' l' ids.
Proof. intros E. induction ids as [|i ids IH]; simpl; auto. rewrite (lk_id _ _ i E). destruct (id_to_task l' i); auto. rewrite lk_index, IH. reflexivity. Qed.
Lemma lk_len l l' : map sub_shape l = map sub_shape l' -> length l = length l'.
Proof. intros E. apply (f_equal (@length _)) in E. rewrite !map_length in E. auto. Qed.

Lemma lk_prefix n t m : get_prefix he n g t m = get_prefix he n g' t m.
Proof.
  unfold get_prefix. destruct (lk_entry m (""%string, mkHtn [] None Total None)) as [_ [Es Eo]]. rewrite lk_name, Eo.
  destruct (htn_orderings (snd (nth m (tg_methods g') _))) as [|ords].
  - pose proof (lk_split (name_of g' t) _ _ Es) as Hs. destruct (split_at _ _) as [[a b]|], (split_at _ _) as [[a' b']|]; try contradiction; auto.
    destruct Hs as [Ha _]. rewrite (names_shape _ _ Ha). apply lk_indices.
  - rewrite (lk_len _ _ Es). destruct (negb _); auto. rewrite (lk_occurrences _ _ (name_of g' t) Es), (lk_prefix_loop _ _ ords _ n Es).
    apply bind_eq; auto. intros ids. apply lk_map_ids; auto.
Qed.
Lemma lk_suffix n t m : get_suffix he n g t m = get_suffix he n g' t m.
Proof.
  unfold get_suffix. destruct (lk_entry m (""%string, mkHtn [] None Total None)) as [_ [Es Eo]]. rewrite lk_name, Eo.
  destruct (htn_orderings (snd (nth m (tg_methods g') _))) as [|ords].
  - pose proof (lk_split (name_of g' t) _ _ Es) as Hs. destruct (split_at _ _) as [[a b]|], (split_at _ _) as [[a' b']|]; try contradiction; auto.
    destruct Hs as [_ Hb]. rewrite (names_shape _ _ Hb). apply lk_indices.
  - rewrite (lk_len _ _ Es). destruct (negb _); auto. rewrite (lk_occurrences _ _ (name_of g' t) Es).
    apply bind_eq; auto. intros ids. apply lk_map_ids; auto.
Qed.
Lemma lk_context n null x : forall rest m eps suf, cycle_context he n g null x m rest eps suf = cycle_context he n g' null x m rest eps suf.
Proof.
  induction rest as [|[t m'] rest IH]; intros m eps suf; simpl; auto. rewrite lk_prefix. apply bind_eq; auto. intros p.
  rewrite lk_suffix. apply bind_eq; auto.
Qed.
Lemma lk_names c : cycle_names g c = cycle_names g' c.
Proof.
  unfold cycle_names. apply map_ext. intros [t m]. simpl. rewrite lk_name. f_equal. apply lk_entry.
Qed.
Lemma lk_visit n null p m : forall ts st r, visit_tasks he n g null p m ts st r = visit_tasks he n g' null p m ts st r.
Proof.
  induction ts as [|t ts IH]; intros st r; simpl; auto. destruct (cycle_from t p) as [c|].
  - destruct (c ++ [(t, m)]) as [|[t0 m0] rest] eqn:Ec; auto. rewrite lk_context. apply bind_eq; auto. intros es. rewrite lk_names. apply IH.
  - rewrite lk_from. apply IH.
Qed.
Lemma lk_search n lf null : forall st r, recursion_loop he n lf g null st r = recursion_loop he n lf g' null st r.
Proof.
  induction n as [|n IH]; intros [|p st] r; simpl; auto. rewrite lk_tasks, lk_visit. apply bind_eq; auto.
Qed.
Lemma lk_recursion n lf nulls : get_recursion_type he n lf g nulls = get_recursion_type he n lf g' nulls.
Proof.
  unfold get_recursion_type. rewrite lk_indices. apply bind_eq; auto. intros null. rewrite lk_search. f_equal.
  unfold initial_stack. rewrite lk_keys. apply fold_left_ext'. intros a t. rewrite lk_from. reflexivity.
Qed.
End Like.

Lemma metadata_shape he n lf d d' : shape_of d = shape_of d' -> domain_metadata he n lf d = domain_metadata he n lf d'.
Proof.
  intros E. unfold domain_metadata. destruct (tdg_new_like d d' E) as [(g & g' & -> & -> & Hg)|[E1 E2]].
  - simpl. rewrite (lk_nullables he g g' Hg). apply bind_eq; auto. intros nulls. rewrite (lk_recursion he g g' Hg). apply bind_eq; auto.
    intros r. f_equal. f_equal.
    + apply (f_equal (fun s => length (sh_actions s))) in E. simpl in E. rewrite !map_length in E. auto.
    + apply (f_equal (fun s => length (sh_tasks s))) in E. simpl in E. rewrite !map_length in E. auto.
    + apply (f_equal (fun s => length (sh_methods s))) in E. simpl in E. rewrite !map_length in E. auto.
  - rewrite <- E1. destruct (tdg_new d); simpl; auto. exfalso. eapply E2; eauto.
Qed.
Lemma filter_map_comm {A B} (f : A -> B) (p : B -> bool) l : filter p (map f l) = map f (filter (fun x => p (f x)) l).
Proof. induction l as [|x l IH]; simpl; auto. destruct (p (f x)); simpl; rewrite IH; auto. Qed.
Definition warned_name (w : warning) : string := match w with NoPrimitiveRefinement x _ => x end.
Lemma Permutation_filter' {A} (p : A -> bool) l l' : Permutation l l' -> Permutation (filter p l) (filter p l').
Proof.
  induction 1; simpl; auto.
  - destruct (p x); auto.
  - destruct (p x), (p y); auto. apply perm_swap.
  - etransitivity; eauto.
Qed.
Lemma warnings_shape he n d d' tb tb' : hash_env_ok he -> shape_of d = shape_of d' ->
  verify_domain he n d = Ok tb -> verify_domain he n d' = Ok tb' ->
  Permutation (map warned_name (st_warnings tb)) (map warned_name (st_warnings tb')).
Proof.
  intros Hhe E Ev Ev'. destruct (verify_domain_list _ _ _ _ Ev) as (g & Eg & ->). destruct (verify_domain_list _ _ _ _ Ev') as (g' & Eg' & ->).
  destruct (tdg_new_like d d' E) as [(g0 & g0' & Eg0 & Eg0' & Hg)|[_ E2]]; [|exfalso; eapply E2; eauto].
  assert (g0 = g) as -> by congruence. assert (g0' = g') as -> by congruence.
  rewrite !map_map. simpl.
  set (w := fun x => match reachable he n g x with Ok r => match rs_primitives r with [] => negb (rs_nullable r) | _ => false end | _ => false end).
  assert (forall l, map (fun t => task_name t) (filter (warns g he n) l) = filter w (map task_name l)) as E1.
  { intros l. rewrite filter_map_comm. reflexivity. }
  assert (forall l, map (fun t => task_name t) (filter (warns g' he n) l) = filter w (map task_name l)) as E2.
  { intros l. rewrite filter_map_comm. f_equal. apply filter_ext. intros t. unfold w. rewrite (lk_reachable he g g' Hg). reflexivity. }
  rewrite E1, E2. apply Permutation_filter'.
  etransitivity; [apply Permutation_map, ho_decl_ok; auto|]. etransitivity; [|apply Permutation_map, Permutation_sym, ho_decl_ok; auto].
  apply (f_equal sh_tasks) in E. simpl in E. rewrite E. apply Permutation_refl.
Qed.

(** ** Formulas *)
Definition agree (swap : bool) (a b : outcome unit) : Prop := if swap then a = Ok tt <-> b = Ok tt else a = b.
Section Agree.
Variable swap : bool.
Lemma ag_refl a : agree swap a a.
Proof. unfold agree. destruct swap; tauto. Qed.
Lemma ag_eq a b : a = b -> agree swap a b.
Proof. intros ->. apply ag_refl. Qed.
Lemma ag_sym a b : agree swap a b -> agree swap b a.
Proof. unfold agree. destruct swap; intuition congruence. Qed.
Lemma ag_trans a b c : agree swap a b -> agree swap b c -> agree swap a c.
Proof. unfold agree. destruct swap; [tauto|congruence]. Qed.
Lemma seq_ok (a b : outcome unit) : (a ;;; b) = Ok tt <-> a = Ok tt /\ b = Ok tt.
Proof. destruct a as [[]| | |]; simpl; split; intuition congruence. Qed.
Lemma ag_seq a a' b b' : agree swap a a' -> agree swap b b' -> agree swap (a ;;; b) (a' ;;; b').
Proof. unfold agree. destruct swap; [rewrite !seq_ok; tauto|intros -> ->; reflexivity]. Qed.
Lemma ag_each {A} (R : A -> A -> Prop) (f f' : A -> outcome unit) l l' : (forall x y, R x y -> agree swap (f x) (f' y)) -> Forall2 R l l' ->
  agree swap (for_each f l) (for_each f' l').
Proof. intros Hf. induction 1; simpl; [apply ag_refl|apply ag_seq; auto]. Qed.
Lemma seq_assoc (a b c : outcome unit) : ((a ;;; b) ;;; c) = (a ;;; b ;;; c).
Proof. destruct a; reflexivity. Qed.
Lemma each_app {A} (f : A -> outcome unit) l r : for_each f (l ++ r) = (for_each f l ;;; for_each f r).
Proof. induction l as [|x l IH]; simpl; auto. rewrite IH, seq_assoc. reflexivity. Qed.
Lemma seq_twice (a b c : outcome unit) : (a ;;; b ;;; a ;;; c) = (a ;;; b ;;; c).
Proof. destruct a as [[]| | |]; simpl; auto. Qed.
End Agree.

(** Two readings of a formula that respect [alike]. *)
Section Reading.
Variables goal swap : bool.
Variable v : formula -> outcome unit.
Hypothesis v_empty : v FEmpty = Ok tt.
Hypothesis v_not : forall f, v (FNot f) = v f.
Hypothesis v_weight : forall w f, v (FWeighted w f) = v f.
Hypothesis v_equal : forall a b, v (FEquals a b) = Ok tt.
Hypothesis v_and : forall fs, v (FAnd fs) = for_each v fs.
Hypothesis v_or : forall fs, v (FOr fs) = for_each v fs.
Hypothesis v_xor : forall fs, v (FXor fs) = for_each v fs.
Hypothesis v_forall : forall vs ws f g, agree swap (v f) (v g) -> agree swap (v (FForAll vs f)) (v (FForAll ws g)).
Hypothesis v_forall_and : forall vs fs, v (FForAll vs (FAnd fs)) = v (FAnd (map (FForAll vs) fs)).
Hypothesis v_imply : goal = true -> forall ps qs, v (FImply ps qs) = v (FAnd (ps ++ qs)).
Hypothesis v_goal_forall : goal = true -> forall vs f, v (FForAll vs f) = Ok tt.
Hypothesis v_goal_exists : goal = true -> forall vs f, v (FExists vs f) = Ok tt.
Lemma reading f g : alike goal swap f g -> agree swap (v f) (v g).
Proof.
  induction 1 as [f|f g _ IH|f g h _ IH1 _ IH2|f|w f|a b|fs|fs| |f|fs gs hs|fs f gs hs|fs f g hs _ IH|vs ws f g _ IH|vs fs|fs f g hs Hs|ps qs Hg|vs f Hg|vs f Hg].
  - apply ag_refl.
  - apply ag_sym; auto.
  - eapply ag_trans; eauto.
  - apply ag_eq, v_not.
  - apply ag_eq, v_weight.
  - apply ag_eq. rewrite v_equal, v_empty. reflexivity.
  - apply ag_eq. rewrite v_or, v_and. reflexivity.
  - apply ag_eq. rewrite v_xor, v_and. reflexivity.
  - apply ag_eq. rewrite v_and, v_empty. reflexivity.
  - apply ag_eq. rewrite v_and. simpl. destruct (v f) as [[]| | |]; reflexivity.
  - apply ag_eq. rewrite !v_and, !each_app. simpl. rewrite v_and. reflexivity.
  - apply ag_eq. rewrite !v_and, !each_app. simpl. rewrite !each_app. simpl. rewrite seq_twice. reflexivity.
  - rewrite !v_and, !each_app. apply ag_seq; [apply ag_refl|]. simpl. apply ag_seq; [auto|apply ag_refl].
  - apply v_forall; auto.
  - apply ag_eq, v_forall_and.
  - rewrite !v_and, !each_app. apply ag_seq; [apply ag_refl|]. simpl. subst swap. unfold agree. rewrite !seq_ok. tauto.
  - apply ag_eq, v_imply; auto.
  - apply ag_eq. rewrite v_goal_forall, v_empty; auto.
  - apply ag_eq. rewrite v_goal_exists, v_empty; auto.
Qed.
End Reading.

Lemma check_pd_all preds fs :
  (fix check_all (fs : list formula) : outcome unit :=
     match fs with
     | [] => Ok tt
     | g :: fs' => check_predicate_declarations preds g ;;; check_all fs'
     end) fs = for_each (check_predicate_declarations preds) fs.
Proof. induction fs as [|f fs IH]; simpl; auto. rewrite IH. reflexivity. Qed.
Lemma pd_alike preds swap f g : alike false swap f g ->
  agree swap (check_predicate_declarations preds f) (check_predicate_declarations preds g).
Proof.
  apply reading; try discriminate; try reflexivity; try (intros; apply check_pd_all).
  - auto.
  - intros vs fs. simpl. rewrite !check_pd_all. induction fs as [|f0 fs IH]; simpl; auto. rewrite IH. reflexivity.
Qed.
Lemma atoms_and c fs : for_each c (prop_preds (FAnd fs)) = for_each (fun f => for_each c (prop_preds f)) fs.
Proof. simpl. induction fs as [|f fs IH]; simpl; auto. rewrite each_app, IH. reflexivity. Qed.
Lemma atoms_alike c goal swap f g : alike goal swap f g -> agree swap (for_each c (prop_preds f)) (for_each c (prop_preds g)).
Proof.
  apply (reading goal swap (fun f => for_each c (prop_preds f))); try reflexivity; try (intros; apply atoms_and).
  - intros. apply ag_refl.
  - intros vs fs. rewrite atoms_and. simpl. induction fs as [|f0 fs IH]; simpl; auto.
  - intros _ ps qs. simpl. rewrite flat_map_app. reflexivity.
Qed.

(** ** Domains and problems *)
Section Domain.
Variable swap : bool.
Variables d d' : domain_ast.
Hypothesis Hd : like_domain swap d d'.
Lemma like_formula ps f f' : opt_rel (alike false swap) f f' -> agree swap (verify_formula d ps f) (verify_formula d' ps f').
Proof.
  destruct Hd as (Ht & Hc & _ & Hp & _). intros [|g g' Hg]; simpl; [apply ag_refl|].
  unfold declared_constants. rewrite Ht, Hc, Hp. apply ag_seq; [apply pd_alike; auto|].
  unfold check_formula. apply ag_seq; [apply ag_refl|]. eapply atoms_alike; eauto.
Qed.
Lemma like_verify_action a a' : like_action swap a a' -> agree swap (verify_action d a) (verify_action d' a').
Proof.
  intros (En & Ep & Eps & H1 & H2). unfold verify_action. rewrite Eps. apply ag_seq; [apply ag_refl|]. apply ag_seq; apply like_formula; auto.
Qed.
Lemma like_find x : match find_action x (d_actions d), find_action x (d_actions d') with
  | Some a, Some a' => act_params a = act_params a'
  | None, None => True
  | _, _ => False
  end.
Proof.
  destruct Hd as (_ & _ & _ & _ & _ & Ha & _). unfold find_action. clear Hd. induction Ha as [|a a' l l' (En & Ep & Eps & _) Hl IH]; simpl; auto.
  rewrite En. destruct (String.eqb _ x); auto.
Qed.
Lemma like_task_consistent t terms ps :
  is_task_consistent (d_types d) t terms ps (declared_constants d) (d_tasks d) (d_actions d)
  = is_task_consistent (d_types d') t terms ps (declared_constants d') (d_tasks d') (d_actions d').
Proof.
  pose proof (like_find (sym_name t)) as Hf. destruct Hd as (Ht & Hc & _ & Hp & Htk & _).
  unfold is_task_consistent, declared_constants. rewrite Ht, Hc, Htk. apply bind_eq; auto. intros found.
  destruct (find_action _ (d_actions d)) as [a|], (find_action _ (d_actions d')) as [a'|]; try contradiction; auto. rewrite Hf. reflexivity.
Qed.
Lemma each_ext {A} (f f' : A -> outcome unit) l : (forall x, f x = f' x) -> for_each f l = for_each f' l.
Proof. intros Hf. induction l as [|x l IH]; simpl; auto. rewrite Hf, IH. reflexivity. Qed.
Lemma like_verify_method m m' : like_method swap m m' -> agree swap (verify_method d m) (verify_method d' m').
Proof.
  intros (E1 & E2 & E3 & E4 & E5 & Hp). unfold verify_method, verify_method_task. rewrite E2, E3, E4, E5.
  apply ag_seq; [apply ag_refl|]. apply ag_seq; [apply like_formula; auto|]. apply ag_eq.
  rewrite (each_ext _ _ _ (fun s => like_task_consistent (sub_task s) (sub_terms s) (m_params m'))).
  destruct Hd as (Ht & Hc & _ & _ & Htk & _). unfold declared_constants. rewrite Ht, Hc, Htk. reflexivity.
Qed.
Lemma ag_fresh {A} mk (name : A -> string) p (R : A -> A -> Prop) (body body' : A -> outcome unit) :
  (forall x y, R x y -> name x = name y /\ p x = p y /\ agree swap (body x) (body' y)) ->
  forall l l', Forall2 R l l' -> forall b b', map (fun y => (name y, p y)) b = map (fun y => (name y, p y)) b' ->
  agree swap (each_fresh mk name p (fun _ => body) b l) (each_fresh mk name p (fun _ => body') b' l').
Proof.
  intros HR l l' Hl. induction Hl as [|x y l l' Hx Hl IH]; intros b b' Hb; simpl; [apply ag_refl|].
  destruct (HR x y Hx) as (E1 & E2 & Hv). rewrite Hb, E1, E2. apply ag_seq; [apply ag_refl|]. apply ag_seq; auto.
  apply IH. rewrite !map_app, Hb. simpl. rewrite E1, E2. reflexivity.
Qed.
Lemma like_check_domain : agree swap (check_domain d) (check_domain d').
Proof.
  pose proof Hd as (Ht & Hc & Hr & Hp & Htk & Ha & Hm). unfold check_domain, verify_predicates, verify_compound_tasks. rewrite Ht, Hr, Hp, Htk.
  do 4 (apply ag_seq; [apply ag_refl|]). apply ag_seq.
  - apply (ag_fresh DuplicateAction act_name act_pos (like_action swap)); auto.
    intros a a' Haa. pose proof Haa as (E1 & E2 & _). split; auto. split; auto. apply like_verify_action; auto.
  - apply (ag_fresh DuplicateMethod (fun m => sym_name (m_name m)) (fun m => sym_pos (m_name m)) (like_method swap)); auto.
    intros m m' Hmm. pose proof Hmm as (E1 & _). rewrite E1. split; auto. split; auto. apply like_verify_method; auto.
Qed.
Lemma like_shape : shape_of d = shape_of d'.
Proof.
  destruct Hd as (_ & _ & _ & _ & Htk & Ha & Hm). clear Hd. unfold shape_of. rewrite Htk. f_equal.
  - induction Ha as [|a a' l l' (E & _) _ IH]; simpl; auto. rewrite E, IH. reflexivity.
  - induction Hm as [|m m' l l' (E1 & E2 & _ & _ & E3 & _) _ IH]; simpl; auto. rewrite E1, E2, E3, IH. reflexivity.
Qed.
Lemma like_refinement he n g g' ts : like_tdg g g' -> refinement_warnings he n g ts = refinement_warnings he n g' ts.
Proof. intros Hg. induction ts as [|t ts IH]; simpl; auto. rewrite (lk_reachable he g g' Hg), IH. reflexivity. Qed.

(** The symbol tables differ in the formulas of the actions only. *)
Definition like_table (tb tb' : symbol_table) : Prop :=
  st_warnings tb = st_warnings tb' /\ st_constants tb = st_constants tb' /\ st_predicates tb = st_predicates tb' /\ st_tasks tb = st_tasks tb'
  /\ Forall2 (like_action swap) (st_actions tb) (st_actions tb') /\ st_types tb = st_types tb'.
Definition agree_table (a b : outcome symbol_table) : Prop :=
  match a, b with
  | Ok tb, Ok tb' => like_table tb tb'
  | Ok _, _ | _, Ok _ => False
  | Err e, Err e' => swap = true \/ e = e'
  | Panic p, Panic p' => swap = true \/ p = p'
  | OutOfFuel, OutOfFuel => True
  | _, _ => swap = true
  end.
Lemma like_verify_domain he n : agree_table (verify_domain he n d) (verify_domain he n d').
Proof.
  pose proof like_check_domain as Hc. pose proof like_shape as Hs. pose proof Hd as (Ht & Hco & _ & Hp & Htk & Ha & _).
  assert (agree_table
    (g <-- tdg_new d ;; ws <-- refinement_warnings he n g (ho_decl he (d_tasks d)) ;;
     Ok (mkTable ws (declared_constants d) (d_preds d) (d_tasks d) (d_actions d) (d_types d)))
    (g <-- tdg_new d' ;; ws <-- refinement_warnings he n g (ho_decl he (d_tasks d')) ;;
     Ok (mkTable ws (declared_constants d') (d_preds d') (d_tasks d') (d_actions d') (d_types d')))) as Hr.
  { destruct (tdg_new_like d d' Hs) as [(g & g' & -> & -> & Hg)|[E1 E2]].
    - simpl. rewrite (like_refinement he n g g' _ Hg), Htk. destruct (refinement_warnings _ _ _ _); simpl; auto.
      unfold declared_constants. rewrite Hco. repeat split; simpl; auto.
    - rewrite <- E1. destruct (tdg_new d) as [g| | |]; simpl; auto. exfalso. eapply E2; eauto. }
  unfold verify_domain, agree in *. destruct swap eqn:Esw.
  - destruct (check_domain d) as [[]| | |], (check_domain d') as [[]| | |]; cbn [obind]; auto;
      try (exfalso; assert (Ok tt = Ok tt) as X by reflexivity; apply Hc in X; discriminate);
      simpl; auto.
  - rewrite <- Hc. destruct (check_domain d) as [[]| | |]; cbn [obind]; auto; simpl; auto.
Qed.
End Domain.

Section Problem.
Variable swap : bool.
Variables tb tb' : symbol_table.
Hypothesis Htb : like_table swap tb tb'.
Lemma like_tb_find x : match find_action x (st_actions tb), find_action x (st_actions tb') with
  | Some a, Some a' => act_params a = act_params a'
  | None, None => True
  | _, _ => False
  end.
Proof.
  destruct Htb as (_ & _ & _ & _ & Ha & _). unfold find_action. clear Htb. induction Ha as [|a a' l l' (En & Ep & Eps & _) Hl IH]; simpl; auto.
  rewrite En. destruct (String.eqb _ x); auto.
Qed.
Lemma like_instantiation os p : check_predicate_instantiation tb os p = check_predicate_instantiation tb' os p.
Proof.
  destruct Htb as (_ & Hc & Hp & _ & _ & Ht). unfold check_predicate_instantiation. rewrite Hp. destruct (find_predicate _ _); auto.
  destruct (negb _); auto. apply each_ext. intros [e f]. unfold check_pred_arg. rewrite Ht, Hc. reflexivity.
Qed.
Lemma like_subtask os ps s : check_subtask_instantiation tb os ps s = check_subtask_instantiation tb' os ps s.
Proof.
  pose proof (like_tb_find (sym_name (sub_task s))) as Hf. destruct Htb as (_ & Hc & Hp & Htk & _ & Ht). unfold check_subtask_instantiation. rewrite Htk.
  assert (forall l, for_each (fun ef => check_subtask_arg tb os ps (sym_name (sub_task s)) (fst ef) (snd ef)) l
                  = for_each (fun ef => check_subtask_arg tb' os ps (sym_name (sub_task s)) (fst ef) (snd ef)) l) as E.
  { intros l. apply each_ext. intros [e f]. unfold check_subtask_arg. rewrite Ht, Hc. reflexivity. }
  destruct (find_action _ (st_actions tb)) as [a|], (find_action _ (st_actions tb')) as [a'|]; try contradiction.
  - rewrite Hf. destruct (negb _); auto.
  - destruct (find_task _ _); auto. destruct (negb _); auto.
Qed.
Lemma like_verify_problem p p' : like_problem swap p p' ->
  if swap then forall ws, verify_problem tb p = Ok ws <-> verify_problem tb' p' = Ok ws
  else verify_problem tb p = verify_problem tb' p'.
Proof.
  intros (E1 & E2 & E3 & Hg). unfold verify_problem. rewrite E1, E2, E3.
  assert (agree swap
    match p_goal p with None => Ok tt | Some g => for_each (check_predicate_instantiation tb (p_objects p')) (prop_preds g) end
    match p_goal p' with None => Ok tt | Some g => for_each (check_predicate_instantiation tb' (p_objects p')) (prop_preds g) end) as Hga.
  { destruct Hg as [|g g' Hg]; [apply ag_refl|]. rewrite (each_ext _ _ (prop_preds g) (like_instantiation (p_objects p'))). eapply atoms_alike; eauto. }
  rewrite (each_ext _ _ (p_init p') (like_instantiation (p_objects p'))).
  assert (match p_init_tn p' with
          | None => Ok tt
          | Some tn => verify_ordering (itn_tn tn) ;;; for_each (check_subtask_instantiation tb (p_objects p') (itn_params tn)) (htn_subtasks (itn_tn tn))
          end
        = match p_init_tn p' with
          | None => Ok tt
          | Some tn => verify_ordering (itn_tn tn) ;;; for_each (check_subtask_instantiation tb' (p_objects p') (itn_params tn)) (htn_subtasks (itn_tn tn))
          end) as Et.
  { destruct (p_init_tn p') as [tn|]; auto. apply bind_eq; auto. intros []. apply each_ext. intros s. apply like_subtask. }
  rewrite Et. destruct Htb as (Hw & _ & _ & _ & _ & Ht). rewrite Ht, Hw. unfold agree in Hga. destruct swap.
  - intros ws. do 4 (match goal with |- obind ?a _ = _ <-> obind ?a _ = _ => destruct a as [[]| | |]; cbn [obind]; [|split; discriminate..] end).
    destruct (match p_goal p with None => _ | Some _ => _ end) as [[]| | |], (match p_goal p' with None => _ | Some _ => _ end) as [[]| | |]; cbn [obind];
      try tauto; try (split; discriminate); exfalso; assert (Ok tt = Ok tt) as X by reflexivity; apply Hga in X; discriminate.
  - rewrite Hga. reflexivity.
Qed.
End Problem.
