(** The checks of the semantic analysis against the declarative conditions of
    SpecSem.v: acceptance, meaning of errors, panics. *)
From Coq Require Import String NArith Bool List Relations Lia PeanoNat.
From Verif Require Import Base Token Lexer Errors Ast Graph Semantic GraphProofs FormulaInd SpecSem.
Import ListNotations.
Open Scope list_scope.
Open Scope outcome_scope.

(** ** Sequencing *)
Lemma seq_ok (a b : outcome unit) : (a ;;; b) = Ok tt <-> a = Ok tt /\ b = Ok tt.
Proof. destruct a as [[]| | |]; simpl; split; try tauto; try (intros [? ?]; congruence); congruence. Qed.
Lemma seq_err {B} (a : outcome unit) (b : outcome B) e :
  (a ;;; b) = Err e -> a = Err e \/ (a = Ok tt /\ b = Err e).
Proof. destruct a as [[]| | |]; simpl; auto; try discriminate. intros E. injection E as ->. auto. Qed.
Lemma seq_panic {B} (a : outcome unit) (b : outcome B) p :
  (a ;;; b) = Panic p -> a = Panic p \/ (a = Ok tt /\ b = Panic p).
Proof. destruct a as [[]| | |]; simpl; auto; try discriminate. intros E. injection E as ->. auto. Qed.
Lemma seq_fuel {B} (a : outcome unit) (b : outcome B) :
  (a ;;; b) = OutOfFuel -> a = OutOfFuel \/ (a = Ok tt /\ b = OutOfFuel).
Proof. destruct a as [[]| | |]; simpl; auto; discriminate. Qed.

Lemma sem_inj {A} e e' : @sem A e = Err e' -> e' = ESem e.
Proof. unfold sem. congruence. Qed.

Section Loops.
Context {A : Type}.
Variable f : A -> outcome unit.
Lemma for_each_ok l : for_each f l = Ok tt <-> Forall (fun x => f x = Ok tt) l.
Proof.
  induction l as [|x l IH]; simpl.
  - split; auto.
  - rewrite seq_ok, IH. split.
    + intros []. constructor; auto.
    + intros Hf. inversion Hf; auto.
Qed.
Lemma for_each_err l e : for_each f l = Err e -> exists x, In x l /\ f x = Err e.
Proof.
  induction l as [|x l IH]; simpl; [discriminate|]. intros E. apply seq_err in E as [E|[_ E]].
  - eauto.
  - apply IH in E as (y & ? & ?). eauto.
Qed.
Lemma for_each_panic l e : for_each f l = Panic e -> exists x, In x l /\ f x = Panic e.
Proof.
  induction l as [|x l IH]; simpl; [discriminate|]. intros E. apply seq_panic in E as [E|[_ E]].
  - eauto.
  - apply IH in E as (y & ? & ?). eauto.
Qed.
Lemma for_each_fuel l : for_each f l = OutOfFuel -> exists x, In x l /\ f x = OutOfFuel.
Proof.
  induction l as [|x l IH]; simpl; [discriminate|]. intros E. apply seq_fuel in E as [E|[_ E]].
  - eauto.
  - apply IH in E as (y & ? & ?). eauto.
Qed.
End Loops.

(** ** Duplicates *)
Lemma position_of_spec name : forall seen,
  In name (map fst seen) ->
  exists l1 p l2, seen = l1 ++ (name, p) :: l2 /\ ~ In name (map fst l1) /\ position_of name seen = Ok p.
Proof.
  induction seen as [|[n p] seen IH]; simpl; [tauto|]. intros Hi.
  destruct (String.eqb n name) eqn:E.
  - apply String.eqb_eq in E as ->. exists [], p, seen. auto.
  - apply String.eqb_neq in E. destruct Hi as [->|Hi]; [congruence|].
    destruct (IH Hi) as (l1 & q & l2 & -> & Hn & Ep). exists ((n, p) :: l1), q, l2.
    simpl. repeat split; auto. intros [->|]; auto.
Qed.

Section Fresh.
Context {A : Type}.
Variable mk : dup_err -> sem_err.
Variable name : A -> string.
Variable pos : A -> N.
Variable b : A -> outcome unit.
Let pairs l := map (fun y => (name y, pos y)) l.
Let pairs_fst l : map fst (pairs l) = map name l.
Proof. unfold pairs. rewrite map_map. reflexivity. Qed.

Lemma check_fresh_ok before x :
  check_fresh mk (pairs before) (name x) (pos x) = Ok tt <-> ~ In (name x) (map name before).
Proof.
  unfold check_fresh. rewrite pairs_fst. destruct (mem_str (name x) (map name before)) eqn:E.
  - apply mem_str_In in E. split; [|tauto]. destruct (position_of _ _); discriminate.
  - apply mem_str_false in E. tauto.
Qed.

Lemma check_fresh_bad before x :
  In (name x) (map name before) ->
  exists l1 y l2, before = l1 ++ y :: l2 /\ name y = name x /\ ~ In (name x) (map name l1)
    /\ check_fresh mk (pairs before) (name x) (pos x) = Err (ESem (mk (mkDup (name x) (pos y) (pos x)))).
Proof.
  intros Hi. unfold check_fresh. rewrite pairs_fst. assert (E := Hi). apply mem_str_In in E. rewrite E.
  destruct (position_of_spec (name x) (pairs before)) as (l1 & p & l2 & Es & Hn & ->).
  { rewrite pairs_fst; auto. }
  simpl. unfold pairs in Es. apply map_eq_app in Es as (m1 & m2 & -> & E1 & E2).
  apply map_eq_cons in E2 as (y & m3 & -> & E2 & _). injection E2 as E2 E3. subst l1 p.
  exists m1, y, m3. repeat split; auto. fold (pairs m1) in Hn. rewrite pairs_fst in Hn. auto.
Qed.

Lemma nodup_snoc l x : NoDup (map name (l ++ [x])) <-> NoDup (map name l) /\ ~ In (name x) (map name l).
Proof.
  rewrite map_app. simpl. split.
  - intros Hn. split.
    + apply NoDup_remove_1 in Hn. rewrite app_nil_r in Hn. auto.
    + apply NoDup_remove_2 in Hn. rewrite app_nil_r in Hn. auto.
  - intros [Hn Hx]. apply NoDup_Add with (a := name x) (l := map name l); auto.
    rewrite <- (app_nil_r (map name l)) at 1. apply Add_app.
Qed.

Notation fresh := (each_fresh mk name pos (fun _ x => b x)).
Lemma each_fresh_ok : forall l before, NoDup (map name before) ->
  (fresh before l = Ok tt <-> NoDup (map name (before ++ l)) /\ Forall (fun x => b x = Ok tt) l).
Proof.
  induction l as [|x l IH]; intros before Hb; simpl.
  - rewrite app_nil_r. split; auto.
  - rewrite seq_ok, seq_ok. fold (pairs before). rewrite check_fresh_ok. split.
    + intros (Hx & E1 & E2). apply IH in E2; [|apply nodup_snoc; auto].
      rewrite <- app_assoc in E2. destruct E2. split; auto.
    + intros [Hn Hf]. inversion Hf as [|? ? E1 E2]; subst.
      assert (NoDup (map name (before ++ [x]))) as Hn1.
      { change (x :: l) with ([x] ++ l) in Hn. rewrite app_assoc, map_app in Hn.
        clear -Hn. induction (map name (before ++ [x])) as [|y r IH]; [constructor|].
        simpl in Hn. inversion Hn; subst. constructor; auto. intros Hy. apply H1. apply in_or_app; auto. }
      repeat split; auto.
      * apply nodup_snoc in Hn1. tauto.
      * apply IH; auto. rewrite <- app_assoc. auto.
Qed.

Lemma each_fresh_err : forall l before e, NoDup (map name before) ->
  fresh before l = Err e ->
  (exists de, e = ESem (mk de) /\ repeated name pos (before ++ l) de)
  \/ (exists x, In x l /\ b x = Err e /\ NoDup (map name (before ++ [x]))).
Proof.
  induction l as [|x l IH]; intros before e Hb; simpl; [discriminate|]. intros E.
  fold (pairs before) in E.
  destruct (in_dec string_dec (name x) (map name before)) as [Hi|Hi].
  - left. destruct (check_fresh_bad before x Hi) as (l1 & y & l2 & -> & Ey & Hn & Ec).
    rewrite Ec in E. simpl in E. injection E as <-. eexists. split; [reflexivity|].
    exists l1, y, l2, x, l. cbn [dup_symbol dup_first dup_second]. rewrite <- app_assoc. auto 10.
  - assert (Ec := proj2 (check_fresh_ok before x) Hi). rewrite Ec in E. simpl in E.
    assert (NoDup (map name (before ++ [x]))) as Hn by (apply nodup_snoc; auto).
    apply seq_err in E as [E|[_ E]].
    + right. exists x. auto.
    + apply IH in E as [(de & -> & Hr)|(y & Hy & Ey & Hd)]; auto.
      * left. exists de. rewrite <- app_assoc in Hr. auto.
      * right. exists y. split; auto. split; auto.
        rewrite map_app in *. clear -Hd. rewrite map_app, <- app_assoc in Hd. apply NoDup_remove_1 in Hd. auto.
Qed.

Lemma each_fresh_panic : forall l before p, NoDup (map name before) ->
  fresh before l = Panic p -> exists x, In x l /\ b x = Panic p.
Proof.
  induction l as [|x l IH]; intros before p Hb; simpl; [discriminate|]. intros E.
  fold (pairs before) in E.
  destruct (in_dec string_dec (name x) (map name before)) as [Hi|Hi].
  - destruct (check_fresh_bad before x Hi) as (l1 & y & l2 & -> & Ey & Hn & Ec).
    rewrite Ec in E. discriminate.
  - assert (Ec := proj2 (check_fresh_ok before x) Hi). rewrite Ec in E. simpl in E.
    apply seq_panic in E as [E|[_ E]]; [eauto|].
    apply IH in E as (y & Hy & Ey); [eauto|apply nodup_snoc; auto].
Qed.

Lemma each_fresh_fuel : forall l before, NoDup (map name before) ->
  fresh before l = OutOfFuel -> exists x, In x l /\ b x = OutOfFuel.
Proof.
  induction l as [|x l IH]; intros before Hb; simpl; [discriminate|]. intros E.
  fold (pairs before) in E.
  destruct (in_dec string_dec (name x) (map name before)) as [Hi|Hi].
  - destruct (check_fresh_bad before x Hi) as (l1 & y & l2 & -> & Ey & Hn & Ec).
    rewrite Ec in E. discriminate.
  - assert (Ec := proj2 (check_fresh_ok before x) Hi). rewrite Ec in E. simpl in E.
    apply seq_fuel in E as [E|[_ E]]; [eauto|].
    apply IH in E as (y & Hy & Ey); [eauto|apply nodup_snoc; auto].
Qed.
End Fresh.

(** ** Requirements *)
Lemma requirement_eqb_eq r s : requirement_eqb r s = true <-> r = s.
Proof. destruct r, s; simpl; split; congruence. Qed.
Lemma existsb_req r l : existsb (requirement_eqb r) l = true <-> In r l.
Proof.
  rewrite existsb_exists. split.
  - intros (x & Hx & E). apply requirement_eqb_eq in E as ->. auto.
  - intros Hi. exists r. split; auto. apply requirement_eqb_eq; auto.
Qed.

Lemma dup_reqs_ok : forall l seen,
  check_duplicate_requirements seen l = Ok tt <-> NoDup l /\ (forall r, In r l -> ~ In r seen).
Proof.
  induction l as [|r l IH]; intros seen; simpl.
  - split; auto. intros _. split; [constructor|tauto].
  - destruct (existsb (requirement_eqb r) seen) eqn:E.
    + apply existsb_req in E. split; [discriminate|]. intros [_ Hs]. exfalso. eapply Hs; eauto.
    + assert (~ In r seen) as Hr by (rewrite <- existsb_req, E; discriminate).
      rewrite IH. split.
      * intros [Hn Hs]. split.
        -- constructor; auto. intros Hi. eapply Hs; eauto. left; auto.
        -- intros x [<-|Hx]; auto. intros Hi. eapply Hs; eauto. right; auto.
      * intros [Hn Hs]. inversion Hn; subst. split; auto. intros x Hx [<-|Hi]; auto. eapply Hs; eauto.
Qed.
Lemma dup_reqs_err : forall l seen e,
  check_duplicate_requirements seen l = Err e ->
  exists r, e = ESem (DuplicateRequirement r) /\
    ((exists l1 l2 l3, l = l1 ++ r :: l2 ++ r :: l3) \/ (In r seen /\ In r l)).
Proof.
  induction l as [|r l IH]; intros seen e; simpl; [discriminate|].
  destruct (existsb (requirement_eqb r) seen) eqn:E.
  - apply existsb_req in E. intros Ee. apply sem_inj in Ee as ->. exists r. auto.
  - intros Ee. apply IH in Ee as (s & -> & Hc). exists s. split; auto.
    destruct Hc as [(l1 & l2 & l3 & ->)|[[E'|Hs] Hi]].
    + left. exists (r :: l1), l2, l3. auto.
    + subst s. left. apply in_split in Hi as (l1 & l2 & ->). exists [], l1, l2. auto.
    + right. auto.
Qed.

(** ** Types *)
Lemma clos_trans_incl {A} (R S : A -> A -> Prop) : (forall a b, R a b -> S a b) ->
  forall a b, clos_trans A R a b -> clos_trans A S a b.
Proof. intros Hi. induction 1; [apply t_step; auto|eapply t_trans; eauto]. Qed.
Lemma clos_rt_incl {A} (R S : A -> A -> Prop) : (forall a b, R a b -> S a b) ->
  forall a b, clos_refl_trans A R a b -> clos_refl_trans A S a b.
Proof. intros Hi. induction 1; [apply rt_step; auto|apply rt_refl|eapply rt_trans; eauto]. Qed.

Lemma type_edge_parent types a b : In (a, b) (type_edges types) <-> parent types a b.
Proof.
  unfold parent, type_edges, type_decls. destruct types as [l|].
  - rewrite in_flat_map. split.
    + intros (s & Hs & Hi). exists s. destruct (sym_type s); simpl in Hi; [|tauto].
      destruct Hi as [E|[]]. injection E as -> ->. auto.
    + intros (s & Hs & <- & E). exists s. rewrite E. simpl. auto.
  - simpl. split; [tauto|]. intros (s & [] & _).
Qed.

Lemma type_node_declared types t : In t (type_nodes types) <-> declared_type types t.
Proof.
  unfold declared_type, type_nodes, type_decls. destruct types as [l|].
  - rewrite in_flat_map. split.
    + intros (s & Hs & Hi). exists s. split; auto. destruct Hi as [E|Hi]; auto.
      destruct (sym_type s); simpl in Hi; [|tauto]. destruct Hi as [->|[]]. auto.
    + intros (s & Hs & Hi). exists s. split; auto. destruct Hi as [E|E]; [left; auto|].
      rewrite E. right; left; auto.
  - simpl. split; [tauto|]. intros (s & [] & _).
Qed.

Lemma type_path types a b : path_to (type_edges types) a b <-> subtype types a b.
Proof.
  split; apply clos_rt_incl; intros x y; apply type_edge_parent.
Qed.
Lemma type_plus types a b : path_plus (type_edges types) a b <-> clos_trans string (parent types) a b.
Proof.
  split; apply clos_trans_incl; intros x y; apply type_edge_parent.
Qed.

Lemma hierarchy_ok types : verify_type_hierarchy types = Ok tt <-> types_acyclic types.
Proof.
  unfold verify_type_hierarchy, types_acyclic. destruct (acyclicb (type_edges types)) eqn:E.
  - apply acyclicb_spec in E. split; auto. intros _ a Ha. apply type_plus in Ha. eapply E; eauto.
  - apply acyclicb_false in E as (a & Ha). split; [discriminate|].
    intros Hn. exfalso. apply (Hn a). apply type_plus. auto.
Qed.
Lemma hierarchy_err types e : verify_type_hierarchy types = Err e ->
  e = ESem CyclicType /\ exists a, clos_trans string (parent types) a a.
Proof.
  unfold verify_type_hierarchy. destruct (acyclicb (type_edges types)) eqn:E; [discriminate|].
  intros Ee. apply sem_inj in Ee as ->. split; auto.
  apply acyclicb_false in E as (a & Ha). exists a. apply type_plus. auto.
Qed.

(** A symbol's type has a position (guaranteed by the parser). *)
Definition typed_pos (s : symbol) : Prop := sym_type s <> None -> sym_type_pos s <> None.

Lemma decls_ok types l : check_type_declarations types l = Ok tt <-> types_declared types l.
Proof.
  unfold check_type_declarations, types_declared. rewrite for_each_ok, Forall_forall. split.
  - intros Hf s t Hs Et. specialize (Hf _ Hs). simpl in Hf. rewrite Et in Hf.
    destruct (mem_str t (type_nodes types)) eqn:E; [apply type_node_declared, mem_str_In; auto|].
    destruct (sym_type_pos s); discriminate.
  - intros Hd s Hs. simpl. destruct (sym_type s) as [t|] eqn:Et; auto.
    assert (E : mem_str t (type_nodes types) = true) by (apply mem_str_In, type_node_declared; eauto).
    rewrite E. auto.
Qed.
Lemma decls_err types l e : check_type_declarations types l = Err e ->
  exists s t p, e = ESem (UndefinedType (mkUndef t p)) /\ In s l /\ sym_type s = Some t
    /\ sym_type_pos s = Some p /\ ~ declared_type types t.
Proof.
  intros E. apply for_each_err in E as (s & Hs & E). simpl in E.
  destruct (sym_type s) as [t|] eqn:Et; [|discriminate].
  destruct (mem_str t (type_nodes types)) eqn:Em; [discriminate|].
  destruct (sym_type_pos s) as [p|] eqn:Ep; [|discriminate].
  apply sem_inj in E as ->. exists s, t, p. repeat split; auto.
  apply mem_str_false in Em. rewrite <- type_node_declared. auto.
Qed.
Lemma decls_panic types l p : check_type_declarations types l = Panic p ->
  exists s, In s l /\ ~ typed_pos s.
Proof.
  intros E. apply for_each_panic in E as (s & Hs & E). simpl in E. exists s. split; auto.
  unfold typed_pos. destruct (sym_type s); [|discriminate].
  destruct (mem_str _ _); [discriminate|]. destruct (sym_type_pos s); [discriminate|].
  intros Hn. apply Hn; congruence.
Qed.

Lemma consistent_spec types f e : is_var_type_consistent types f e = true <-> fits types f e.
Proof.
  unfold is_var_type_consistent, fits. destruct f as [f|], e as [e|]; try (split; [discriminate|tauto]); try tauto.
  rewrite orb_true_iff, has_path_spec, type_path. split; auto.
  intros [E|Hp]; auto. apply String.eqb_eq in E as ->. apply rt_refl.
Qed.
Lemma consistent_false types f e : is_var_type_consistent types f e = false <-> ~ fits types f e.
Proof.
  rewrite <- consistent_spec. destruct (is_var_type_consistent types f e); split; congruence.
Qed.

(** ** Lookups *)
Section Find.
Context {A : Type}.
Variable name : A -> string.
Notation look n := (find (fun x => String.eqb (name x) n)).

Lemma find_first n l x : look n l = Some x <-> first_named name n l x.
Proof.
  induction l as [|y l IH]; simpl.
  - split; [discriminate|inversion 1].
  - destruct (String.eqb (name y) n) eqn:E.
    + apply String.eqb_eq in E. split.
      * intros Ex. injection Ex as ->. constructor; auto.
      * inversion 1; subst; congruence.
    + apply String.eqb_neq in E. rewrite IH. split.
      * constructor; auto.
      * inversion 1; subst; congruence.
Qed.
Lemma find_none n l : look n l = None <-> unnamed name n l.
Proof.
  unfold unnamed. split.
  - intros E x Hx En. eapply find_none in E; eauto. simpl in E. apply String.eqb_neq in E. auto.
  - induction l as [|y l IH]; simpl; auto. intros Hn.
    destruct (String.eqb (name y) n) eqn:E; auto.
    apply String.eqb_eq in E. exfalso. eapply Hn; eauto.
Qed.
Lemma first_named_in n l x : first_named name n l x -> In x l /\ name x = n.
Proof. induction 1; simpl; tauto. Qed.
Lemma first_named_fun n l x y : first_named name n l x -> first_named name n l y -> x = y.
Proof. intros Hx Hy. apply find_first in Hx, Hy. congruence. Qed.
Lemma unique_named n l x y : NoDup (map name l) -> In x l -> name x = n -> In y l -> name y = n -> x = y.
Proof.
  induction l as [|z l IH]; simpl; [tauto|]. intros Hn. inversion Hn; subst.
  assert (forall u, In u l -> name z <> name u) as Hz.
  { intros u Hu E. apply H1. rewrite E. apply in_map; auto. }
  intros [->|Hx] Ex [->|Hy] Ey; auto; exfalso; eapply Hz; eauto; congruence.
Qed.
Lemma find_unique n l x : NoDup (map name l) -> (look n l = Some x <-> In x l /\ name x = n).
Proof.
  intros Hn. split.
  - intros E. apply find_first in E. apply first_named_in; auto.
  - intros [Hi En]. destruct (look n l) as [y|] eqn:E.
    + apply find_first, first_named_in in E as [? ?]. f_equal. eapply unique_named; eauto.
    + exfalso. rewrite find_none in E. eapply E; eauto.
Qed.
Lemma find_rev n l x : NoDup (map name l) -> (look n (rev l) = Some x <-> In x l /\ name x = n).
Proof.
  intros Hn. rewrite find_unique.
  - rewrite <- in_rev. tauto.
  - rewrite map_rev. apply NoDup_rev; auto.
Qed.
Lemma find_rev_none n l : look n (rev l) = None <-> unnamed name n l.
Proof.
  rewrite find_none. unfold unnamed. split; intros Hx x Hi; apply Hx.
  - apply -> in_rev. auto.
  - apply in_rev. auto.
Qed.
End Find.

Lemma denotes_fun params constants n t t' : NoDup (map sym_name params) ->
  denotes params constants n t -> denotes params constants n t' -> t = t'.
Proof.
  intros Hn [p Hp En Et|c Hu Hf Et] [p' Hp' En' Et'|c' Hu' Hf' Et'].
  - assert (p = p') by (eapply (unique_named sym_name); eauto). congruence.
  - exfalso. eapply Hu'; eauto.
  - exfalso. eapply Hu; eauto.
  - assert (c = c') by (eapply first_named_fun; eauto). congruence.
Qed.

(** ** Arguments *)
Lemma Forall2_len {A B} (R : A -> B -> Prop) l l' : Forall2 R l l' -> length l = length l'.
Proof. induction 1; simpl; auto. Qed.

Section Args.
Variables params constants : list symbol.
Hypothesis Hn : NoDup (map sym_name params).

Lemma arg_types_ok : forall args l,
  arg_types params constants args = Ok l <->
  Forall2 (fun v x => fst x = v /\ denotes params constants (sym_name v) (snd x)) args l.
Proof.
  induction args as [|v args IH]; intros l; simpl.
  - split; [intros E; injection E as <-; constructor|inversion 1; auto].
  - assert (forall t, denotes params constants (sym_name v) t ->
      ((r <-- arg_types params constants args ;; Ok ((v, t) :: r)) = Ok l <->
       Forall2 (fun v x => fst x = v /\ denotes params constants (sym_name v) (snd x)) (v :: args) l)) as Hs.
    { intros t Ht. split.
      - intros E. destruct (arg_types params constants args) as [r| | |]; simpl in E; try discriminate.
        injection E as <-. constructor; [simpl; auto|]. apply IH; auto.
      - intros Hf. inversion Hf as [|? [v' t'] ? r [Ev Hd] Hr]; subst. simpl in *.
        apply IH in Hr. rewrite Hr. simpl. rewrite (denotes_fun _ _ _ _ _ Hn Ht Hd). auto. }
    destruct (find_symbol_last (sym_name v) params) as [p|] eqn:E.
    + apply Hs. unfold find_symbol_last, find_symbol in E. apply find_rev in E as [? ?]; auto.
      eapply den_param; eauto.
    + assert (unnamed sym_name (sym_name v) params) as Hu by (apply find_rev_none in E; auto).
      destruct (find_symbol (sym_name v) constants) as [c|] eqn:E2.
      * apply Hs. apply find_first in E2. eapply den_const; eauto.
      * apply find_none in E2. split; [discriminate|]. intros Hf. inversion Hf as [|? x ? r [_ Hd] _]; subst.
        exfalso. destruct Hd as [p Hp Ep _|c _ Hc _].
        -- eapply Hu; eauto.
        -- apply first_named_in in Hc as [? ?]. eapply E2; eauto.
Qed.

Lemma arg_types_err : forall args e,
  arg_types params constants args = Err e ->
  exists v, In v args /\ e = ESem (UndefinedParameter (mkUndef (sym_name v) (sym_pos v)))
    /\ unnamed sym_name (sym_name v) params /\ unnamed sym_name (sym_name v) constants.
Proof.
  induction args as [|v args IH]; simpl; [discriminate|]. intros e.
  assert (forall t, (r <-- arg_types params constants args ;; Ok ((v, t) :: r)) = Err e ->
    arg_types params constants args = Err e) as Hs.
  { intros t. destruct (arg_types params constants args); simpl; congruence. }
  destruct (find_symbol_last (sym_name v) params) as [p|] eqn:E.
  - intros Ee. apply Hs, IH in Ee as (w & ? & ?). eauto.
  - destruct (find_symbol (sym_name v) constants) as [c|] eqn:E2.
    + intros Ee. apply Hs, IH in Ee as (w & ? & ?). eauto.
    + intros Ee. apply sem_inj in Ee as ->. exists v. apply find_rev_none in E. apply find_none in E2. auto.
Qed.

Lemma arg_types_calm : forall args,
  (forall p, arg_types params constants args <> Panic p) /\ arg_types params constants args <> OutOfFuel.
Proof.
  induction args as [|v args [IH1 IH2]]; simpl; [split; discriminate|].
  assert (forall t, (forall p, (r <-- arg_types params constants args ;; Ok ((v, t) :: r)) <> Panic p)
                    /\ (r <-- arg_types params constants args ;; Ok ((v, t) :: r)) <> OutOfFuel) as Hs.
  { intros t. destruct (arg_types params constants args); simpl; split; congruence. }
  destruct (find_symbol_last (sym_name v) params); auto.
  destruct (find_symbol (sym_name v) constants); auto. split; discriminate.
Qed.

Lemma check_arg_types_ok types mk : forall found expected, length found = length expected ->
  (check_arg_types types mk found expected = Ok tt <->
   Forall2 (fun x e => fits types (snd x) e) found expected).
Proof.
  induction found as [|[v t] found IH]; intros [|e expected] Hl; simpl; try discriminate.
  - split; auto.
  - destruct (is_var_type_consistent types t e) eqn:E.
    + apply consistent_spec in E. injection Hl as Hl. rewrite IH by auto. split.
      * constructor; auto.
      * inversion 1; auto.
    + apply consistent_false in E. split; [discriminate|]. inversion 1; subst. simpl in *. tauto.
Qed.
Lemma check_arg_types_err types mk : forall found expected er,
  check_arg_types types mk found expected = Err er ->
  exists i v t e, nth_error found i = Some (v, t) /\ nth_error expected i = Some e
    /\ ~ fits types t e /\ er = ESem (mk (mkTypeErr e t (sym_name v) (sym_pos v))).
Proof.
  induction found as [|[v t] found IH]; intros [|e expected] er; simpl; try discriminate.
  destruct (is_var_type_consistent types t e) eqn:E.
  - intros Ee. apply IH in Ee as (i & w & t' & e' & ?). exists (S i), w, t', e'. auto.
  - apply consistent_false in E. intros Ee. apply sem_inj in Ee as ->. exists O, v, t, e. auto.
Qed.
Lemma check_arg_types_calm types mk : forall found expected,
  (forall p, check_arg_types types mk found expected <> Panic p)
  /\ check_arg_types types mk found expected <> OutOfFuel.
Proof.
  induction found as [|[v t] found IH]; intros [|e expected]; simpl; try (split; discriminate).
  destruct (is_var_type_consistent types t e); auto. split; discriminate.
Qed.

(** Both steps together. *)
Lemma args_check_ok types mk args formals l :
  arg_types params constants args = Ok l -> length args = length formals ->
  (check_arg_types types mk l (map sym_type formals) = Ok tt <->
   args_ok types params constants args formals).
Proof.
  intros E Hl. apply arg_types_ok in E. unfold args_ok.
  assert (length l = length (map sym_type formals)) as Hl'.
  { rewrite map_length, <- Hl. symmetry. eapply Forall2_len; eauto. }
  rewrite check_arg_types_ok by auto. clear Hl'.
  revert formals Hl. induction E as [|v [v' t] args l [Ev Hd] _ IH]; intros [|f formals] Hl; try discriminate; simpl.
  - split; constructor.
  - injection Hl as Hl. specialize (IH formals Hl). simpl in Hd. split.
    + inversion 1; subst. constructor; [eauto|]. apply IH; auto.
    + inversion 1 as [|? ? ? ? (t' & Hd' & Hf) Hr]; subst. constructor; [|apply IH; auto].
      simpl. rewrite (denotes_fun _ _ _ _ _ Hn Hd Hd'). auto.
Qed.
Lemma args_check_err types mk args formals l e :
  arg_types params constants args = Ok l ->
  check_arg_types types mk l (map sym_type formals) = Err e ->
  exists i v f t, nth_error args i = Some v /\ nth_error formals i = Some f
    /\ denotes params constants (sym_name v) t /\ ~ fits types t (sym_type f)
    /\ e = ESem (mk (mkTypeErr (sym_type f) t (sym_name v) (sym_pos v))).
Proof.
  intros E Ee. apply arg_types_ok in E. apply check_arg_types_err in Ee as (i & v & t & ty & E1 & E2 & Hf & ->).
  rewrite nth_error_map in E2. destruct (nth_error formals i) as [f|] eqn:Ef; [|discriminate].
  injection E2 as <-.
  assert (nth_error args i = Some v /\ denotes params constants (sym_name v) t) as [E3 Hd].
  { clear -E E1. revert i E1. induction E as [|w [w' t'] args l [Ew Hd] _ IH]; intros [|i]; simpl; try discriminate; auto.
    intros E1. injection E1 as <- <-. simpl in *. subst. auto. }
  exists i, v, f, t. auto 10.
Qed.
Lemma args_ok_types types args formals : args_ok types params constants args formals ->
  exists l, arg_types params constants args = Ok l /\ length args = length formals.
Proof.
  intros Ha.
  assert (exists l, Forall2 (fun v x => fst x = v /\ denotes params constants (sym_name v) (snd x)) args l) as (l & Hl).
  { induction Ha as [|v f args formals (t & Hd & _) _ (l & Hl)].
    - exists []; constructor.
    - exists ((v, t) :: l). constructor; auto. }
  exists l. split; [apply arg_types_ok; auto|]. eapply Forall2_len; eauto.
Qed.
End Args.
