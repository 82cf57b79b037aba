(** C57: the export is valid JSON in the documented shape.  Specification:
    SpecJson.v. *)
From Coq Require Import String Ascii NArith ZArith Bool List Lia.
From Verif Require Import Base Token Lexer Errors Ast Parser Api Json StrFacts SpecLex FormulaInd ParserProofs PropsLex PropsParse
  SpecIo JsonProofs VerifyTop PropsIo SpecJson JsonText.
Import ListNotations.
Open Scope list_scope.
Open Scope string_scope.

(** ** The exported values have the documented shape *)
Ltac nodup := repeat (apply NoDup_cons; [simpl; intuition discriminate|]); apply NoDup_nil.
Ltac is_field := eexists; split; [eexists; split; [reflexivity|]; split; [cbn [map fst app]; nodup|]; simpl; eauto 20|].
Lemma array_list {A} (R : json -> A -> Prop) f l : (forall x, R (f x) x) -> array R (j_list f l) l.
Proof. intros Hf. exists (map f l). split; auto. induction l; simpl; constructor; auto. Qed.
Lemma nullable_opt {A} (R : json -> A -> Prop) f o : (forall x, R (f x) x) -> nullable R (j_opt f o) o.
Proof. intros Hf. destruct o; simpl; auto. Qed.
Lemma pos_shape p : is_position (j_pos p) p.
Proof. eexists. split; [reflexivity|]. split; [nodup|]. simpl. auto. Qed.
Lemma text_shape s : text (JStr s) s.
Proof. reflexivity. Qed.
Lemma symbol_shape s : is_symbol (j_symbol s) s.
Proof.
  destruct s as [n p [t|] [q|]]; unfold is_symbol, j_symbol, skipped; cbn [sym_name sym_pos sym_type sym_type_pos app];
    repeat split; try (is_field; auto using text_shape, pos_shape); eexists; (split; [reflexivity|]); simpl; intuition discriminate.
Qed.
Lemma symbols_shape l : array is_symbol (j_list j_symbol l) l.
Proof. apply array_list, symbol_shape. Qed.
Lemma predicate_shape p : is_predicate (j_predicate p) p.
Proof. repeat split; is_field; auto using text_shape, pos_shape, symbols_shape. Qed.
Lemma task_shape p : is_task (j_task p) p.
Proof. repeat split; is_field; auto using text_shape, pos_shape, symbols_shape. Qed.
Lemma function_shape p : is_function (j_func p) p.
Proof. repeat split; is_field; auto using text_shape, pos_shape, symbols_shape. Qed.
Lemma subtask_shape p : is_subtask (j_subtask p) p.
Proof. repeat split; is_field; auto using symbols_shape, symbol_shape, nullable_opt. Qed.
Lemma constraint_shape c : is_constraint (j_constr c) c.
Proof. destruct c; constructor. Qed.
Lemma ordering_shape c : is_ordering (j_ordering c) c.
Proof. destruct c; constructor. Qed.
Lemma requirement_shape c : is_requirement (j_requirement c) c.
Proof. destruct c; constructor. Qed.
Lemma network_shape h : is_network (j_htn h) h.
Proof.
  repeat split; is_field; auto using array_list, subtask_shape, nullable_opt, pos_shape, ordering_shape, constraint_shape.
Qed.
Lemma init_network_shape h : is_init_network (j_init_tn h) h.
Proof. repeat split; is_field; auto using network_shape, nullable_opt, symbols_shape. Qed.

(** ** A value has one meaning *)
Definition reads {A B} (R : json -> A -> Prop) (f : A -> B) : Prop := forall j x y, R j x -> R j y -> f x = f y.
Lemma has_fun j k v w : has j k v -> has j k w -> v = w.
Proof.
  intros (fs & -> & Hn & Hv) (fs' & E & _ & Hw). injection E as <-.
  induction fs as [|[k' x] fs IH]; [destruct Hv|]. simpl in Hn. inversion Hn as [|? ? Hx Hn']; subst.
  destruct Hv as [Hv|Hv], Hw as [Hw|Hw]; auto; [congruence| |].
  - injection Hv as -> _. destruct Hx. apply in_map_iff. exists (k, w); auto.
  - injection Hw as -> _. destruct Hx. apply in_map_iff. exists (k, v); auto.
Qed.
Lemma has_lacks j k v : has j k v -> lacks j k -> False.
Proof. intros (fs & -> & _ & Hv) (fs' & E & Hn). injection E as <-. apply Hn, in_map_iff. exists (k, v); auto. Qed.
Lemma field_reads {A B} (R : json -> A -> Prop) (f : A -> B) j k x y :
  reads R f -> field R j k x -> field R j k y -> f x = f y.
Proof. intros Hr (v & Hv & Rv) (w & Hw & Rw). rewrite (has_fun _ _ _ _ Hv Hw) in Rv. eauto. Qed.
Lemma skipped_reads {A B} (R : json -> A -> Prop) (f : A -> B) j k x y :
  reads R f -> skipped R j k x -> skipped R j k y -> option_map f x = option_map f y.
Proof.
  intros Hr. destruct x as [x|], y as [y|]; simpl; auto.
  - intros Hx Hy. f_equal. eapply field_reads; eauto.
  - intros (v & Hv & _) Hl. destruct (has_lacks _ _ _ Hv Hl).
  - intros Hl (v & Hv & _). destruct (has_lacks _ _ _ Hv Hl).
Qed.
Lemma array_reads {A B} (R : json -> A -> Prop) (f : A -> B) : reads R f -> reads (array R) (map f).
Proof.
  intros Hr j x y (js & -> & Hx) (js' & E & Hy). injection E as <-. revert y Hy.
  induction Hx; intros y' Hy; inversion Hy; subst; simpl; f_equal; eauto.
Qed.
Lemma nullable_reads {A B} (R : json -> A -> Prop) (f : A -> B) :
  (forall x, ~ R JNull x) -> reads R f -> reads (nullable R) (option_map f).
Proof.
  intros Hn Hr j [x|] [y|]; simpl; auto; intros Hx Hy; subst; try (exfalso; eapply Hn; eauto; fail). f_equal; eauto.
Qed.
Lemma field_null {A} (R : json -> A -> Prop) k x : ~ field R JNull k x.
Proof. intros (v & (fs & E & _) & _). discriminate. Qed.
Lemma array_null {A} (R : json -> A -> Prop) x : ~ array R JNull x.
Proof. intros (js & E & _). discriminate. Qed.
Definition id {A} (x : A) : A := x.
Lemma map_id' {A} (l : list A) : map id l = l.
Proof. induction l; simpl; unfold id in *; congruence. Qed.
Lemma option_id {A} (o : option A) : option_map id o = o.
Proof. destruct o; auto. Qed.
Lemma array_id {A} (R : json -> A -> Prop) : reads R id -> reads (array R) id.
Proof. intros Hr j x y Hx Hy. pose proof (array_reads R id Hr j x y Hx Hy) as E. rewrite !map_id' in E. auto. Qed.
Lemma nullable_id {A} (R : json -> A -> Prop) : (forall x, ~ R JNull x) -> reads R id -> reads (nullable R) id.
Proof. intros Hn Hr j x y Hx Hy. pose proof (nullable_reads R id Hn Hr j x y Hx Hy) as E. rewrite !option_id in E. auto. Qed.
Lemma field_id {A} (R : json -> A -> Prop) j k x y : reads R id -> field R j k x -> field R j k y -> x = y.
Proof. intros Hr Hx Hy. exact (field_reads R id j k x y Hr Hx Hy). Qed.
Lemma skipped_id {A} (R : json -> A -> Prop) j k x y : reads R id -> skipped R j k x -> skipped R j k y -> x = y.
Proof. intros Hr Hx Hy. pose proof (skipped_reads R id j k x y Hr Hx Hy) as E. rewrite !option_id in E. auto. Qed.

Lemma text_reads : reads text id.
Proof. intros j x y -> E. injection E as ->. auto. Qed.
Lemma position_reads : reads is_position id.
Proof. intros j x y Hx Hy. pose proof (has_fun _ _ _ _ Hx Hy) as E. injection E as E. unfold id. lia. Qed.
Create HintDb reads.
Ltac same :=
  repeat match goal with
  | H1 : field ?R ?j ?k ?x, H2 : field ?R ?j ?k ?y |- _ =>
    let E := fresh "E" in assert (E : x = y) by (eapply field_id; [|exact H1|exact H2];
      auto using text_reads, position_reads, array_id, nullable_id, array_null, field_null with reads); clear H1 H2
  | H1 : skipped ?R ?j ?k ?x, H2 : skipped ?R ?j ?k ?y |- _ =>
    let E := fresh "E" in assert (E : x = y) by (eapply skipped_id; [|exact H1|exact H2];
      auto using text_reads, position_reads, array_id, nullable_id, array_null, field_null with reads); clear H1 H2
  end.
Lemma symbol_reads : reads is_symbol id.
Proof.
  intros j [] [] (H1 & H2 & H3 & H4) (G1 & G2 & G3 & G4). cbn in *. same. subst. reflexivity.
Qed.
#[local] Hint Resolve symbol_reads : reads.
Lemma predicate_reads : reads is_predicate id.
Proof. intros j [] [] (H1 & H2 & H3) (G1 & G2 & G3). cbn in *. same. subst. reflexivity. Qed.
Lemma task_reads : reads is_task id.
Proof. intros j [] [] (H1 & H2 & H3) (G1 & G2 & G3). cbn in *. same. subst. reflexivity. Qed.
Lemma function_reads : reads is_function id.
Proof. intros j [] [] (H1 & H2 & H3) (G1 & G2 & G3). cbn in *. same. subst. reflexivity. Qed.
Lemma symbol_null x : ~ is_symbol JNull x.
Proof. intros (Hf & _). exact (field_null _ _ _ Hf). Qed.
#[local] Hint Resolve predicate_reads task_reads function_reads symbol_null : reads.
Lemma subtask_reads : reads is_subtask id.
Proof. intros j [] [] (H1 & H2 & H3) (G1 & G2 & G3). cbn in *. same. subst. reflexivity. Qed.
Lemma constraint_reads : reads is_constraint id.
Proof. intros j x y Hx Hy. destruct Hx; inversion Hy; subst; reflexivity. Qed.
Lemma pairs_inj (l l' : list (string * string)) :
  map (fun e => pair_of (fst e) (snd e)) l = map (fun e => pair_of (fst e) (snd e)) l' -> l = l'.
Proof. apply map_inj. intros [] [] E. injection E as -> ->. auto. Qed.
Lemma ordering_reads : reads is_ordering id.
Proof.
  intros j x y Hx Hy. destruct Hx; inversion Hy as [|l' E]; subst; auto. apply pairs_inj in E as ->. reflexivity.
Qed.
Lemma requirement_reads : reads is_requirement id.
Proof. intros j x y Hx Hy. destruct Hx; inversion Hy; subst; reflexivity. Qed.
Lemma position_null x : ~ is_position JNull x.
Proof. intros (fs & E & _). discriminate. Qed.
#[local] Hint Resolve subtask_reads constraint_reads ordering_reads requirement_reads position_null : reads.
Lemma network_reads : reads is_network id.
Proof. intros j [] [] (H1 & H2 & H3 & H4) (G1 & G2 & G3 & G4). cbn in *. same. subst. reflexivity. Qed.
#[local] Hint Resolve network_reads : reads.
Lemma init_network_reads : reads is_init_network id.
Proof. intros j [] [] (H1 & H2) (G1 & G2). cbn in *. same. subst. reflexivity. Qed.
Lemma init_network_null x : ~ is_init_network JNull x.
Proof. intros (Hf & _). exact (field_null _ _ _ Hf). Qed.
#[local] Hint Resolve init_network_reads init_network_null : reads.

Section Reals.
Context `{F : Floats}.

Lemma number_shape n : is_number (j_number n) n.
Proof. destruct n as [l|z]; simpl; [destruct (String.eqb_spec (f64_text l) "null")|]; constructor; auto. Qed.
Lemma formulas_shape l : Forall (fun f => is_formula (j_formula f) f) l -> are_formulas (map j_formula l) l.
Proof. induction 1; simpl; constructor; auto. Qed.
Lemma formula_shape f : is_formula (j_formula f) f.
Proof.
  induction f using formula_nested_ind; cbn [j_formula]; constructor; auto using formulas_shape, predicate_shape, symbols_shape, number_shape.
Qed.
Lemma action_shape p : is_action (j_action p) p.
Proof. repeat split; is_field; auto using text_shape, pos_shape, symbols_shape, nullable_opt, formula_shape. Qed.
Lemma method_shape p : is_method (j_method p) p.
Proof. repeat split; is_field; auto using symbol_shape, symbols_shape, nullable_opt, formula_shape, network_shape. Qed.
Lemma domain_shape p : is_domain (j_domain p) p.
Proof.
  repeat split; is_field; auto using text_shape, symbols_shape, nullable_opt, array_list, requirement_shape, predicate_shape,
    task_shape, method_shape, action_shape, function_shape.
Qed.
Lemma problem_shape p : is_problem (j_problem p) p.
Proof.
  repeat split; is_field; auto using symbols_shape, nullable_opt, array_list, requirement_shape, predicate_shape,
    init_network_shape, formula_shape.
Qed.

Lemma number_reads : reads is_number number_value.
Proof. intros j x y Hx Hy. destruct Hx; inversion Hy; subst; simpl; congruence. Qed.
Lemma formula_reads : reads is_formula formula_value.
Proof.
  intros j f. revert j.
  assert (forall l, Forall (fun f => forall j y, is_formula j f -> is_formula j y -> formula_value f = formula_value y) l ->
     forall js l', are_formulas js l -> are_formulas js l' -> map formula_value l = map formula_value l') as Hl.
  { induction 1 as [|g l Hg _ IH]; intros js l' Hx Hy; inversion Hx; subst; inversion Hy; subst; simpl; f_equal; eauto. }
  induction f using formula_nested_ind; intros j y Hx Hy; inversion Hx; subst; inversion Hy; subst; cbn [formula_value]; auto;
    try (f_equal; eauto; fail).
  - f_equal. match goal with H1 : is_predicate ?j ?x, H2 : is_predicate ?j ?y |- ?x = ?y => exact (predicate_reads _ _ _ H1 H2) end.
  - f_equal; eauto. match goal with H1 : array _ ?j ?x, H2 : array _ ?j ?y |- ?x = ?y => exact (array_id _ symbol_reads _ _ _ H1 H2) end.
  - f_equal; eauto. match goal with H1 : array _ ?j ?x, H2 : array _ ?j ?y |- ?x = ?y => exact (array_id _ symbol_reads _ _ _ H1 H2) end.
  - f_equal; eauto. eapply number_reads; eauto.
Qed.
Lemma formula_null f : ~ is_formula JNull f.
Proof. intros Hf. inversion Hf. Qed.
Lemma goal_reads : reads (nullable is_formula) (option_map formula_value).
Proof. apply nullable_reads; [apply formula_null|apply formula_reads]. Qed.
Ltac same_formula :=
  repeat match goal with
  | H1 : field (nullable is_formula) ?j ?k ?x, H2 : field (nullable is_formula) ?j ?k ?y |- _ =>
    let E := fresh "E" in pose proof (field_reads _ _ _ _ _ _ goal_reads H1 H2) as E; clear H1 H2; rewrite E in *
  end.
Lemma action_reads : reads is_action action_value.
Proof.
  intros j [] [] (H1 & H2 & H3 & H4 & H5) (G1 & G2 & G3 & G4 & G5). unfold action_value. cbn in *. same_formula. same. subst. congruence.
Qed.
Lemma method_reads : reads is_method method_value.
Proof.
  intros j [] [] (H1 & H2 & H3 & H4 & H5 & H6) (G1 & G2 & G3 & G4 & G5 & G6). unfold method_value. cbn in *. same_formula. same. subst. congruence.
Qed.
Lemma domain_reads : reads is_domain domain_value.
Proof.
  intros j [] [] (H1 & H2 & H3 & H4 & H5 & H6 & H7 & H8 & H9) (G1 & G2 & G3 & G4 & G5 & G6 & G7 & G8 & G9). unfold domain_value. cbn in *.
  pose proof (field_reads _ _ _ _ _ _ (array_reads _ _ method_reads) H7 G7) as E7. clear H7 G7.
  pose proof (field_reads _ _ _ _ _ _ (array_reads _ _ action_reads) H8 G8) as E8. clear H8 G8.
  rewrite E7, E8. same. subst. reflexivity.
Qed.
Lemma problem_reads : reads is_problem problem_value.
Proof.
  intros j [] [] (H1 & H2 & H3 & H4 & H5) (G1 & G2 & G3 & G4 & G5). unfold problem_value. cbn in *. same_formula. same. subst. congruence.
Qed.
End Reals.

(** ** C57 *)
Section Export.
Context `{Unicode} `{F : Floats}.
(** serde_json writes a JSON real, or null for infinite values. *)
Hypothesis HF : forall l, f64_text l = "null" \/ real_literal (f64_text l).

(** Whatever is exported is a JSON text whose value describes the parsed
    documents. *)
Theorem C57_export_is_json : forall swap n dom prob t,
  to_json swap n dom prob = Ok t ->
  exists j d p, denotes t j /\ is_export j d p
    /\ parse n dom = Ok (ADomain d)
    /\ match prob, p with
       | None, None => True
       | Some s, Some p => parse n s = Ok (AProblem p)
       | _, _ => False
       end.
Proof.
  intros swap n dom prob t E. unfold to_json in E. apply bind_ok in E as (j & Ej & E). injection E as <-.
  unfold json_value, parse_as_domain, parse_as_problem in Ej.
  destruct (parse n dom) as [[d|p]|e|p|] eqn:Ed; cbn [obind] in Ej; try discriminate.
  destruct prob as [s|].
  - destruct (parse n s) as [[|p]|e|p|] eqn:Ep; cbn [obind] in Ej; try discriminate. injection Ej as <-.
    do 2 eexists. exists (Some p). split; [apply json_text_denotes|split; [|split; [reflexivity|auto]]].
    + destruct swap; constructor; repeat (apply Forall_cons || apply Forall_nil); cbn [snd]; auto using ok_domain, ok_problem.
    + destruct swap; split; cbn [skipped]; is_field; auto using domain_shape, problem_shape.
  - injection Ej as <-. do 2 eexists. exists None. split; [apply json_text_denotes|split; [|split; [reflexivity|auto]]].
    + constructor; repeat (apply Forall_cons || apply Forall_nil); cbn [snd]; auto using ok_domain.
    + split; cbn [skipped]; [is_field; apply domain_shape|]. eexists. split; [reflexivity|]. simpl. intuition discriminate.
Qed.
End Export.

(** A text denotes at most one value, however it is laid out. *)
Theorem C57_one_reading : forall t j j', denotes t j -> denotes t j' -> j = j'.
Proof.
  intros t j j' Hd Hd'. destruct one_reading as [Hr _]. destruct (Hr t j Hd t j' "" "" Hd' I I eq_refl). auto.
Qed.

(** A value describes at most one pair of trees, up to the spelling of reals. *)
Theorem C57_one_meaning : forall `{F : Floats} j d p d' p',
  is_export j d p -> is_export j d' p' ->
  domain_value d = domain_value d' /\ option_map problem_value p = option_map problem_value p'.
Proof.
  intros F j d p d' p' [Hd Hp] [Hd' Hp']. split.
  - exact (field_reads _ _ _ _ _ _ domain_reads Hd Hd').
  - exact (skipped_reads _ _ _ _ _ _ problem_reads Hp Hp').
Qed.

(** ** Examples *)
Definition flo1 : Floats := {| f64_text := fun l => if (l =? "0.5") || (l =? "0.50") then "0.5" else "null" |}.
Lemma half_literal : real_literal "0.5".
Proof.
  exists "0", 0%Z, ".5", "". split; [exact (show_Z_text 0)|]. split; [reflexivity|]. left. split; auto.
  exists "5". split; auto. split; [simpl; auto|discriminate].
Qed.
Lemma flo1_ok : forall l, @f64_text flo1 l = "null" \/ real_literal (@f64_text flo1 l).
Proof. intros l. simpl. destruct ((l =? "0.5") || (l =? "0.50")); auto using half_literal. Qed.

Example C57_example : exists t j d p,
  @to_json uni0 flo1 true 300 (weighted "0.50") (Some prob1) = Ok t
  /\ denotes t j /\ @is_export flo1 j d p /\ d_name d = "d" /\ p <> None.
Proof.
  destruct (@to_json uni0 flo1 true 300 (weighted "0.50") (Some prob1)) as [t|e|q|] eqn:E;
    [|vm_compute in E; discriminate..].
  destruct (@C57_export_is_json uni0 flo1 flo1_ok _ _ _ _ _ E) as (j & d & p & Hd & Hx & Ed & Ep).
  exists t, j, d, p. split; auto. split; auto. split; auto. split.
  - assert (@parse uni0 300 (weighted "0.50") = Ok (ADomain d) -> d_name d = "d") as Hn.
    { clear. intros E. vm_compute in E. injection E as <-. reflexivity. }
    auto.
  - destruct p; [discriminate|destruct Ep].
Qed.
(** Another layout of the same value. *)
Example C57_example_layout : denotes "[ ""\u0041"",-10 ]" (JArr [JStr "A"; JInt (-10)]).
Proof.
  refine (dn_array (" " ++ """\u0041""" ++ "" ++ "," ++ "-10 ") _ (el_more " " _ "" _ _ _ ws_blank _ ws_nil _)).
  - constructor. exists "\u0041". split; [|reflexivity].
    refine (cs_cons "\u0041" "A" "" "" (ct_hex "4" "1" 4 1 (hv_digit 4 _) (hv_digit 1 _) _) cs_nil); reflexivity.
  - refine (el_last "" "-10" " " _ ws_nil _ ws_blank). constructor. exact (show_Z_text (-10)).
Qed.
(** The shape is not met by a value with another key. *)
Example C57_example_key : ~ is_function (JObj [("nam", JStr "f"); ("name_pos", j_pos 1); ("variables", JArr [])]) (mkFunc "f" 1 []).
Proof.
  intros ((v & (fs & E & _ & Hi) & _) & _). injection E as <-. simpl in Hi. intuition discriminate.
Qed.

Definition json_theorems := (@C57_export_is_json, C57_one_reading, @C57_one_meaning).
