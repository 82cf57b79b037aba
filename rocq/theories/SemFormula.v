(** Formulas: declared predicates and typed atoms. *)
From Coq Require Import String NArith Bool List Relations Lia PeanoNat.
From Verif Require Import Base Token Lexer Errors Ast Graph Semantic GraphProofs FormulaInd SpecSem SemProofs.
Import ListNotations.
Open Scope list_scope.
Open Scope outcome_scope.

Lemma within_step g f : within g f <-> g = f \/ exists h, child h f /\ within g h.
Proof.
  unfold within. split.
  - intros Hw. apply clos_rt_rtn1 in Hw. destruct Hw as [|y z Hyz Hw]; auto.
    right. exists y. split; auto. apply clos_rtn1_rt; auto.
  - intros [->|(h & Hc & Hw)]; [apply rt_refl|]. eapply rt_trans; [exact Hw|apply rt_step; auto].
Qed.
Lemma within_open_step g f : within_open g f <-> g = f \/ exists h, open_child h f /\ within_open g h.
Proof.
  unfold within_open. split.
  - intros Hw. apply clos_rt_rtn1 in Hw. destruct Hw as [|y z Hyz Hw]; auto.
    right. exists y. split; auto. apply clos_rtn1_rt; auto.
  - intros [->|(h & Hc & Hw)]; [apply rt_refl|]. eapply rt_trans; [exact Hw|apply rt_step; auto].
Qed.
Lemma within_open_within g f : within_open g f -> within g f.
Proof. apply clos_rt_incl. intros a b Hab. destruct Hab; auto. Qed.

Lemma within_child g h f : child h f -> within g h -> within g f.
Proof. intros Hc Hw. apply within_step. eauto. Qed.

Lemma open_child_inv h f : open_child h f -> child h f /\ forall v k, f <> FExists v k /\ f <> FForAll v k.
Proof. destruct 1; auto. Qed.

(** Atoms collected for type checking. *)
Lemma prop_preds_open f : forall p, In p (prop_preds f) <-> within_open (FAtom p) f.
Proof.
  assert (forall fs p, Forall (fun f => forall p, In p (prop_preds f) <-> within_open (FAtom p) f) fs ->
    (In p (flat_map prop_preds fs) <-> exists f, In f fs /\ within_open (FAtom p) f)) as Hl.
  { intros fs p Hf. rewrite in_flat_map. rewrite Forall_forall in Hf.
    split; intros (f' & Hi & Hp); exists f'; (split; [auto|apply Hf; auto]). }
  assert (forall c p f, (forall v h, f <> FExists v h /\ f <> FForAll v h) -> FAtom p <> f ->
    (forall h, child h f <-> In h c) ->
    (within_open (FAtom p) f <-> exists h, In h c /\ within_open (FAtom p) h)) as Hs.
  { intros c p g Hq Hne Hc. rewrite within_open_step. split.
    - intros [E|(h & Ho & Hw)]; [congruence|]. exists h. apply open_child_inv in Ho as [Hch _]. apply Hc in Hch. auto.
    - intros (h & Hh & Hw). right. exists h. split; auto. constructor; auto. apply Hc; auto. }
  induction f using formula_nested_ind; intros q; simpl.
  - rewrite within_open_step. split; [tauto|]. intros [E|(h & Ho & _)]; [discriminate|].
    apply open_child_inv in Ho as [Hc _]. inversion Hc.
  - rewrite within_open_step. split.
    + intros [->|[]]; auto.
    + intros [E|(h & Ho & _)]; [injection E; auto|]. apply open_child_inv in Ho as [Hc _]. exfalso.
      inversion Hc.
  - rewrite IHf. rewrite (Hs [f] q (FNot f)); try (intros; split; discriminate); try discriminate.
    + split; [intros; exists f; simpl; auto|]. intros (h & [<-|[]] & ?); auto.
    + intros h. split; [inversion 1; simpl; auto|intros [<-|[]]; constructor].
  - rewrite Hl by auto. symmetry. apply Hs; try (intros; split; discriminate); try discriminate.
    intros h; split; [inversion 1; auto|constructor; auto].
  - rewrite Hl by auto. symmetry. apply Hs; try (intros; split; discriminate); try discriminate.
    intros h; split; [inversion 1; auto|constructor; auto].
  - rewrite Hl by auto. symmetry. apply Hs; try (intros; split; discriminate); try discriminate.
    intros h; split; [inversion 1; auto|constructor; auto].
  - rewrite in_app_iff, !Hl by auto. rewrite (Hs (ps ++ qs) q (FImply ps qs));
      try (intros; split; discriminate); try discriminate.
    + split.
      * intros [(h & ? & ?)|(h & ? & ?)]; exists h; rewrite in_app_iff; auto.
      * intros (h & Hi & ?). apply in_app_iff in Hi as [?|?]; eauto.
    + intros h. rewrite in_app_iff. split; [inversion 1; auto|].
      intros [?|?]; [apply ch_imply1|apply ch_imply2]; auto.
  - split; [tauto|]. rewrite within_open_step. intros [E|(h & Ho & _)]; [discriminate|].
    apply open_child_inv in Ho as [Hc Hq]. exfalso. destruct (Hq v f). auto.
  - split; [tauto|]. rewrite within_open_step. intros [E|(h & Ho & _)]; [discriminate|].
    apply open_child_inv in Ho as [Hc Hq]. exfalso. destruct (Hq v f). auto.
  - rewrite IHf. rewrite (Hs [f] q (FWeighted w f)); try (intros; split; discriminate); try discriminate.
    + split; [intros; exists f; simpl; auto|]. intros (h & [<-|[]] & ?); auto.
    + intros h. split; [inversion 1; simpl; auto|intros [<-|[]]; constructor].
  - rewrite within_open_step. split; [tauto|]. intros [E|(h & Ho & _)]; [discriminate|].
    apply open_child_inv in Ho as [Hc _]. inversion Hc.
Qed.

(** ** Declared predicates *)
Section Preds.
Variable preds : list predicate.
Hypothesis Hn : NoDup (map pred_name preds).

Definition declared_atom (p : predicate) : Prop :=
  exists def, In def preds /\ pred_name def = pred_name p /\ length (pred_vars p) = length (pred_vars def).

Notation chk := (check_predicate_declarations preds).

Lemma find_pred_none n : find_predicate n preds = None <-> unnamed pred_name n preds.
Proof. apply (find_none pred_name). Qed.
Lemma find_pred_some n p : find_predicate n preds = Some p <-> In p preds /\ pred_name p = n.
Proof. apply (find_unique pred_name). auto. Qed.

(** The children that are checked, in order. *)
Lemma chk_list (op : list formula -> formula) :
  op = FAnd \/ op = FOr \/ op = FXor -> forall fs, chk (op fs) = for_each chk fs.
Proof.
  intros Hop. assert (forall fs, chk (FAnd fs) = for_each chk fs) as Ha.
  { induction fs as [|f fs IH]; [reflexivity|]. simpl for_each. rewrite <- IH. reflexivity. }
  intros fs. destruct Hop as [->|[->| ->]]; rewrite <- Ha; reflexivity.
Qed.

Lemma supported_child f : 
  supported f <-> match f with FExists _ _ | FImply _ _ => False | _ => True end
                  /\ forall h, child h f -> supported h.
Proof.
  unfold supported. split.
  - intros Hs. split; [apply Hs, rt_refl|]. intros h Hc g Hw. apply Hs. eapply within_child; eauto.
  - intros [H1 H2] g Hw. apply within_step in Hw as [->|(h & Hc & Hw)]; auto. eapply H2; eauto.
Qed.

Definition fine (f : formula) : Prop :=
  supported f /\ forall p, within (FAtom p) f -> declared_atom p.

Lemma fine_child f : 
  fine f <-> match f with FExists _ _ | FImply _ _ => False | FAtom p => declared_atom p | _ => True end
             /\ forall h, child h f -> fine h.
Proof.
  unfold fine. rewrite supported_child. split.
  - intros [[H1 H2] H3]. split.
    + destruct f; auto. apply H3, rt_refl.
    + intros h Hc. split; auto. intros p Hw. apply H3. eapply within_child; eauto.
  - intros [H1 H2]. repeat split.
    + destruct f; auto.
    + apply H2.
    + intros p Hw. apply within_step in Hw as [<-|(h & Hc & Hw)]; auto. eapply H2; eauto.
Qed.

Lemma chk_ok : forall f, chk f = Ok tt <-> fine f.
Proof.
  assert (forall op fs, op = FAnd \/ op = FOr \/ op = FXor ->
    Forall (fun f => chk f = Ok tt <-> fine f) fs -> chk (op fs) = Ok tt <-> fine (op fs)) as Hl.
  { intros op fs Hop Hf. rewrite chk_list by auto. rewrite for_each_ok, fine_child.
    rewrite Forall_forall in *. split.
    - intros Hc. split; [destruct Hop as [->|[->| ->]]; simpl; auto|].
      intros h Hh. apply Hf; [|apply Hc]; destruct Hop as [->|[->| ->]]; inversion Hh; auto.
    - intros [_ Hc] x Hx. apply Hf; auto. apply Hc. destruct Hop as [->|[->| ->]]; constructor; auto. }
  assert (forall g f, chk f = chk g -> (forall h, child h f <-> h = g) ->
    match f with FExists _ _ | FImply _ _ | FAtom _ => False | _ => True end ->
    (chk g = Ok tt <-> fine g) -> (chk f = Ok tt <-> fine f)) as H1.
  { intros g f E Hc Hk IH. rewrite E, IH, fine_child. rewrite (fine_child f). split.
    - intros Hg. split; [destruct f; auto; tauto|]. intros h Hh. apply Hc in Hh as ->.
      apply fine_child; auto.
    - intros [_ Hg]. apply fine_child. apply Hg. apply Hc; auto. }
  assert (forall f, chk f = Ok tt -> (forall h, ~ child h f) ->
     match f with FExists _ _ | FImply _ _ | FAtom _ => False | _ => True end ->
     (chk f = Ok tt <-> fine f)) as H0.
  { intros f E Hc Hk. rewrite fine_child. split; auto. intros _. split; [destruct f; auto; tauto|].
    intros h Hh. exfalso. eapply Hc; eauto. }
  induction f using formula_nested_ind.
  - apply H0; simpl; auto. intros h Hh. inversion Hh.
  - rewrite fine_child. simpl. destruct (find_predicate (pred_name p) preds) as [def|] eqn:E.
    + apply find_pred_some in E as [Hi En].
      destruct (Nat.eqb _ _) eqn:El.
      * apply Nat.eqb_eq in El. split; auto. intros _. split; [exists def; auto|].
        intros h Hh. inversion Hh.
      * apply Nat.eqb_neq in El. split; [discriminate|]. intros [(def' & Hi' & En' & El') _].
        assert (def = def') by (eapply (unique_named pred_name); eauto). subst. congruence.
    + apply find_pred_none in E. split; [discriminate|]. intros [(def' & Hi' & En' & _) _].
      exfalso. eapply E; eauto.
  - apply (H1 f); simpl; auto. intros h; split; [inversion 1; auto|intros ->; constructor].
  - apply Hl; auto.
  - apply (Hl FOr); auto.
  - apply (Hl FXor); auto.
  - rewrite fine_child. simpl. split; [discriminate|tauto].
  - rewrite fine_child. simpl. split; [discriminate|tauto].
  - apply (H1 f); simpl; auto. intros h; split; [inversion 1; auto|intros ->; constructor].
  - apply (H1 f); simpl; auto. intros h; split; [inversion 1; auto|intros ->; constructor].
  - apply H0; simpl; auto. intros h Hh. inversion Hh.
Qed.

(** Meaning of the errors and panics. *)
Definition atom_error (p : predicate) (e : parsing_error) : Prop :=
  (unnamed pred_name (pred_name p) preds /\ e = ESem (UndefinedPredicate (mkUndef (pred_name p) (pred_pos p))))
  \/ (exists def, In def preds /\ pred_name def = pred_name p /\ length (pred_vars def) <> length (pred_vars p)
      /\ e = ESem (InconsistentPredicateArity
               (mkArity (pred_name p) (length (pred_vars def)) (length (pred_vars p)) (pred_pos p)))).

Lemma chk_err : forall f e, chk f = Err e -> exists p, within (FAtom p) f /\ atom_error p e.
Proof.
  assert (forall op fs, op = FAnd \/ op = FOr \/ op = FXor ->
    Forall (fun f => forall e, chk f = Err e -> exists p, within (FAtom p) f /\ atom_error p e) fs ->
    forall e, chk (op fs) = Err e -> exists p, within (FAtom p) (op fs) /\ atom_error p e) as Hl.
  { intros op fs Hop Hf e. rewrite chk_list by auto. intros E. apply for_each_err in E as (f & Hi & E).
    rewrite Forall_forall in Hf. destruct (Hf f Hi e E) as (p & Hw & He). exists p. split; auto.
    eapply within_child; [|exact Hw]. destruct Hop as [->|[->| ->]]; constructor; auto. }
  induction f using formula_nested_ind; intros e; try (simpl; discriminate).
  - simpl. destruct (find_predicate (pred_name p) preds) as [def|] eqn:E.
    + apply find_pred_some in E as [Hi En]. destruct (Nat.eqb _ _) eqn:El; [discriminate|].
      apply Nat.eqb_neq in El. intros Ee. apply sem_inj in Ee as ->. exists p. split; [apply rt_refl|].
      right. exists def. auto.
    + apply find_pred_none in E. intros Ee. apply sem_inj in Ee as ->. exists p. split; [apply rt_refl|]. left; auto.
  - simpl. intros E. apply IHf in E as (p & Hw & He). exists p. split; auto. eapply within_child; eauto. constructor.
  - apply Hl; auto.
  - apply (Hl FOr); auto.
  - apply (Hl FXor); auto.
  - simpl. intros E. apply IHf in E as (p & Hw & He). exists p. split; auto. eapply within_child; eauto. constructor.
  - simpl. intros E. apply IHf in E as (p & Hw & He). exists p. split; auto. eapply within_child; eauto. constructor.
Qed.

Lemma chk_panic : forall f p, chk f = Panic p ->
  p = PanicFormula /\ exists g, within g f /\ match g with FExists _ _ | FImply _ _ => True | _ => False end.
Proof.
  assert (forall op fs, op = FAnd \/ op = FOr \/ op = FXor ->
    Forall (fun f => forall p, chk f = Panic p -> p = PanicFormula /\
       exists g, within g f /\ match g with FExists _ _ | FImply _ _ => True | _ => False end) fs ->
    forall p, chk (op fs) = Panic p -> p = PanicFormula /\
       exists g, within g (op fs) /\ match g with FExists _ _ | FImply _ _ => True | _ => False end) as Hl.
  { intros op fs Hop Hf e. rewrite chk_list by auto. intros E. apply for_each_panic in E as (f & Hi & E).
    rewrite Forall_forall in Hf. destruct (Hf f Hi e E) as (-> & g & Hw & He). split; auto. exists g. split; auto.
    eapply within_child; [|exact Hw]. destruct Hop as [->|[->| ->]]; constructor; auto. }
  assert (forall f h p, child h f -> 
    (p = PanicFormula /\ exists g, within g h /\ match g with FExists _ _ | FImply _ _ => True | _ => False end) ->
    (p = PanicFormula /\ exists g, within g f /\ match g with FExists _ _ | FImply _ _ => True | _ => False end)) as H1.
  { intros f h p Hc (-> & g & Hw & Hg). split; auto. exists g. split; auto. eapply within_child; eauto. }
  induction f using formula_nested_ind; intros q; try (simpl; discriminate).
  - simpl. destruct (find_predicate (pred_name p) preds) as [def|]; [destruct (Nat.eqb _ _)|]; discriminate.
  - simpl. intros E. eapply H1; [constructor|auto].
  - apply Hl; auto.
  - apply (Hl FOr); auto.
  - apply (Hl FXor); auto.
  - simpl. intros E. injection E as <-. split; auto. eexists. split; [apply rt_refl|]. simpl; auto.
  - simpl. intros E. injection E as <-. split; auto. eexists. split; [apply rt_refl|]. simpl; auto.
  - simpl. intros E. eapply H1; [constructor|auto].
  - simpl. intros E. eapply H1; [constructor|auto].
Qed.

Lemma chk_fuel : forall f, chk f <> OutOfFuel.
Proof.
  assert (forall op fs, op = FAnd \/ op = FOr \/ op = FXor ->
    Forall (fun f => chk f <> OutOfFuel) fs -> chk (op fs) <> OutOfFuel) as Hl.
  { intros op fs Hop Hf. rewrite chk_list by auto. intros E. apply for_each_fuel in E as (f & Hi & E).
    rewrite Forall_forall in Hf. eapply Hf; eauto. }
  induction f using formula_nested_ind; try (simpl; discriminate); auto.
  - simpl. destruct (find_predicate (pred_name p) preds) as [def|]; [destruct (Nat.eqb _ _)|]; discriminate.
Qed.

(** ** Typed atoms *)
Section Atom.
Variable types : option (list symbol).
Variables params constants : list symbol.
Hypothesis Hp : NoDup (map sym_name params).

Definition typed_atom (p : predicate) : Prop :=
  exists def, In def preds /\ pred_name def = pred_name p
    /\ args_ok types params constants (pred_vars p) (pred_vars def).

Lemma check_atom_ok p : check_atom types params constants preds p = Ok tt <-> typed_atom p.
Proof.
  unfold check_atom, typed_atom. destruct (find_predicate (pred_name p) preds) as [def|] eqn:E.
  - apply find_pred_some in E as [Hi En].
    assert (Hu : forall def', In def' preds -> pred_name def' = pred_name p -> def' = def)
      by (intros; eapply (unique_named pred_name); eauto).
    destruct (arg_types params constants (pred_vars p)) as [l|e|q|] eqn:Ea; simpl.
    + assert (length l = length (pred_vars p)) as Hl.
      { apply arg_types_ok in Ea; auto. symmetry. eapply Forall2_len; eauto. }
      rewrite map_length. destruct (Nat.eqb (length l) (length (pred_vars def))) eqn:El; simpl.
      * apply Nat.eqb_eq in El. rewrite (args_check_ok params constants Hp types _ (pred_vars p)) by (auto; congruence). split.
        -- intros Ha. exists def. auto.
        -- intros (def' & Hi' & En' & Ha). rewrite (Hu def') in Ha by auto. auto.
      * apply Nat.eqb_neq in El. split; [discriminate|]. intros (def' & Hi' & En' & Ha).
        rewrite (Hu def') in Ha by auto. apply Forall2_len in Ha. congruence.
    + split; [discriminate|]. intros (def' & _ & _ & Ha). apply args_ok_types in Ha as (l & ? & _); auto. congruence.
    + split; [discriminate|]. intros (def' & _ & _ & Ha). apply args_ok_types in Ha as (l & ? & _); auto. congruence.
    + split; [discriminate|]. intros (def' & _ & _ & Ha). apply args_ok_types in Ha as (l & ? & _); auto. congruence.
  - apply find_pred_none in E. split; [discriminate|]. intros (def' & Hi & En & _). exfalso. eapply E; eauto.
Qed.

Lemma check_atom_err p e : check_atom types params constants preds p = Err e ->
  atom_error p e
  \/ (exists v, In v (pred_vars p) /\ e = ESem (UndefinedParameter (mkUndef (sym_name v) (sym_pos v)))
      /\ unnamed sym_name (sym_name v) params /\ unnamed sym_name (sym_name v) constants)
  \/ (exists def i v f t, In def preds /\ pred_name def = pred_name p
      /\ nth_error (pred_vars p) i = Some v /\ nth_error (pred_vars def) i = Some f
      /\ denotes params constants (sym_name v) t /\ ~ fits types t (sym_type f)
      /\ e = ESem (InconsistentPredicateArgType (mkTypeErr (sym_type f) t (sym_name v) (sym_pos v)))).
Proof.
  unfold check_atom. destruct (find_predicate (pred_name p) preds) as [def|] eqn:E.
  - apply find_pred_some in E as [Hi En].
    destruct (arg_types params constants (pred_vars p)) as [l|e'|q|] eqn:Ea; simpl; try discriminate.
    + assert (length l = length (pred_vars p)) as Hl.
      { apply arg_types_ok in Ea; auto. symmetry. eapply Forall2_len; eauto. }
      rewrite map_length. destruct (Nat.eqb (length l) (length (pred_vars def))) eqn:El; simpl.
      * intros Ee. right; right. apply (args_check_err params constants Hp _ _ (pred_vars p)) in Ee as (i & v & f & t & ?); auto.
        exists def, i, v, f, t. tauto.
      * apply Nat.eqb_neq in El. intros Ee. apply sem_inj in Ee as ->. left. right. exists def.
        rewrite Hl. repeat split; auto. congruence.
    + intros Ee. injection Ee as <-. right; left. apply arg_types_err in Ea as (v & ?). exists v. tauto.
  - apply find_pred_none in E. intros Ee. apply sem_inj in Ee as ->. left. left. auto.
Qed.

Lemma check_atom_calm p :
  (forall q, check_atom types params constants preds p <> Panic q)
  /\ check_atom types params constants preds p <> OutOfFuel.
Proof.
  unfold check_atom. destruct (find_predicate _ _) as [def|]; [|split; discriminate].
  destruct (arg_types_calm params constants (pred_vars p)) as [H1 H2].
  destruct (arg_types params constants (pred_vars p)) as [l|e'|q|]; simpl; try (split; congruence).
  destruct (negb _); [split; discriminate|]. apply check_arg_types_calm.
Qed.
End Atom.
End Preds.

(** ** Formulas of a domain *)
Section Domain.
Variable d : domain_ast.
Hypothesis Hn : NoDup (map pred_name (d_preds d)).
Variable params : list symbol.
Hypothesis Hp : NoDup (map sym_name params).

Lemma verify_formula_ok o : verify_formula d params o = Ok tt <-> opt_formula_ok d params o.
Proof.
  destruct o as [g|]; simpl; [|tauto]. rewrite seq_ok, chk_ok by auto.
  unfold check_formula. rewrite seq_ok, decls_ok, for_each_ok, Forall_forall.
  unfold formula_ok, fine. split.
  - intros [[H1 H2] [H3 H4]]. repeat split; auto. intros p Hw. apply prop_preds_open in Hw.
    specialize (H4 p Hw). apply check_atom_ok in H4; auto.
  - intros (H1 & H2 & H3 & H4). repeat split; auto. intros p Hi. apply check_atom_ok; auto.
    apply H4. apply prop_preds_open; auto.
Qed.

Lemma verify_formula_err o e : verify_formula d params o = Err e ->
  exists g, o = Some g /\
  ((exists p, within (FAtom p) g /\ atom_error (d_preds d) p e)
   \/ (exists s t p, e = ESem (UndefinedType (mkUndef t p)) /\ In s params /\ sym_type s = Some t
        /\ sym_type_pos s = Some p /\ ~ declared_type (d_types d) t)
   \/ (exists p v, within_open (FAtom p) g /\ In v (pred_vars p)
        /\ e = ESem (UndefinedParameter (mkUndef (sym_name v) (sym_pos v)))
        /\ unnamed sym_name (sym_name v) params /\ unnamed sym_name (sym_name v) (constants_of d))
   \/ (exists p def i v f t, within_open (FAtom p) g /\ In def (d_preds d) /\ pred_name def = pred_name p
        /\ nth_error (pred_vars p) i = Some v /\ nth_error (pred_vars def) i = Some f
        /\ denotes params (constants_of d) (sym_name v) t /\ ~ fits (d_types d) t (sym_type f)
        /\ e = ESem (InconsistentPredicateArgType (mkTypeErr (sym_type f) t (sym_name v) (sym_pos v))))).
Proof.
  destruct o as [g|]; simpl; [|discriminate]. intros E. exists g. split; auto.
  apply seq_err in E as [E|[_ E]]; [left; eapply chk_err; eauto|].
  apply seq_err in E as [E|[_ E]].
  - right; left. apply decls_err in E as (s & t & p & ?). exists s, t, p. tauto.
  - apply for_each_err in E as (p & Hi & E). apply prop_preds_open in Hi.
    apply check_atom_err in E as [E|[(v & ? & ? & ? & ?)|(def & i & v & f & t & ?)]]; auto.
    + left. exists p. split; auto. apply within_open_within; auto.
    + right; right; left. exists p, v. auto.
    + right; right; right. exists p, def, i, v, f, t. tauto.
Qed.

Lemma verify_formula_panic o p : verify_formula d params o = Panic p ->
  (exists g h, o = Some g /\ within h g /\ match h with FExists _ _ | FImply _ _ => True | _ => False end /\ p = PanicFormula)
  \/ exists s, In s params /\ ~ typed_pos s.
Proof.
  destruct o as [g|]; simpl; [|discriminate]. intros E.
  apply seq_panic in E as [E|[_ E]].
  - left. apply chk_panic in E as (-> & h & Hw & Hh). exists g, h. auto.
  - apply seq_panic in E as [E|[_ E]].
    + right. eapply decls_panic; eauto.
    + apply for_each_panic in E as (q & _ & E). destruct (check_atom_calm (d_preds d) (d_types d) params (declared_constants d) q) as [C1 C2].
      exfalso. first [eapply C1; exact E|exact (C2 E)].
Qed.
Lemma verify_formula_fuel o : verify_formula d params o <> OutOfFuel.
Proof.
  destruct o as [g|]; simpl; [|discriminate]. intros E.
  apply seq_fuel in E as [E|[_ E]]; [eapply chk_fuel; eauto|].
  apply seq_fuel in E as [E|[_ E]].
  - apply for_each_fuel in E as (s & _ & E). simpl in E. destruct (sym_type s); [|discriminate].
    destruct (mem_str _ _); [discriminate|]. destruct (sym_type_pos s); discriminate.
  - apply for_each_fuel in E as (q & _ & E). destruct (check_atom_calm (d_preds d) (d_types d) params (declared_constants d) q) as [C1 C2].
      exfalso. first [eapply C1; exact E|exact (C2 E)].
Qed.
End Domain.
