(** Rendering to JSON text is injective on the exported values, and the
    exported values determine the syntax tree. *)
From Coq Require Import String Ascii NArith ZArith Bool List Lia.
From Verif Require Import Base Token Lexer Errors Ast Parser Api Json StrFacts SpecLex SpecPrint FormulaInd PrintText AstLines SpecIo.
Import ListNotations.
Open Scope list_scope.
Open Scope string_scope.

(** ** Strings *)
Definition hex_digit (c : ascii) : N :=
  let n := N_of_ascii c in if (n <? 58)%N then (n - 48)%N else (n - 87)%N.
(** Reads back one escaped character. *)
Definition unescape1 (s : string) : option (ascii * string) :=
  match s with
  | String "\" (String e r) =>
    match e with
    | """"%char => Some (""""%char, r)
    | "\"%char => Some ("\"%char, r)
    | "b"%char => Some (ascii_of_N 8, r)
    | "t"%char => Some (ascii_of_N 9, r)
    | "n"%char => Some (ascii_of_N 10, r)
    | "f"%char => Some (ascii_of_N 12, r)
    | "r"%char => Some (ascii_of_N 13, r)
    | _ => match r with
           | String _ (String _ (String a (String b r'))) =>
             Some (ascii_of_N (hex_digit a * 16 + hex_digit b), r')
           | _ => None
           end
    end
  | String """" _ => None
  | String c r => Some (c, r)
  | EmptyString => None
  end.
Lemma unescape1_escape c x : unescape1 (escape_char c ++ x) = Some (c, x).
Proof. destruct c as [[] [] [] [] [] [] [] []]; reflexivity. Qed.
Lemma escape_char_cons c : exists c' s, escape_char c = String c' s /\ c' <> """"%char.
Proof. destruct c as [[] [] [] [] [] [] [] []]; vm_compute; do 2 eexists; split; try reflexivity; discriminate. Qed.

Lemma quoted_inj s : forall s' r r', quoted s ++ r = quoted s' ++ r' -> s = s' /\ r = r'.
Proof.
  unfold quoted. cbn [String.append]. intros s' r r' E. injection E as E. revert s' r r' E.
  induction s as [|c s IH]; intros [|c' s'] r r' E; cbn [escape] in E; rewrite !app_assoc_s in E; cbn [String.append] in E.
  - injection E as E. auto.
  - exfalso. destruct (escape_char_cons c') as (a & t & Ea & Hn). rewrite Ea in E. cbn [String.append] in E. congruence.
  - exfalso. destruct (escape_char_cons c) as (a & t & Ea & Hn). rewrite Ea in E. cbn [String.append] in E. congruence.
  - assert (E' := f_equal unescape1 E). rewrite !unescape1_escape in E'. injection E' as -> E'.
    destruct (IH s' r r') as [-> ->]; auto. rewrite !app_assoc_s; auto.
Qed.

(** ** Numbers *)
Definition delim (r : string) : Prop := match r with EmptyString => True | String c _ => ~ num_char c end.
Lemma span_inj (P : ascii -> Prop) a : forall b r r',
  str_all P a -> str_all P b ->
  match r with EmptyString => True | String c _ => ~ P c end ->
  match r' with EmptyString => True | String c _ => ~ P c end ->
  (a ++ r)%string = (b ++ r')%string -> a = b /\ r = r'.
Proof.
  induction a as [|x a IH]; intros [|y b] r r' Ha Hb Hr Hr' E; cbn [String.append] in E; simpl in Ha, Hb.
  - auto.
  - subst r. exfalso. apply Hr. tauto.
  - subst r'. exfalso. apply Hr'. tauto.
  - injection E as -> E. apply IH in E as [-> ->]; tauto.
Qed.

Lemma digits_num s : all_digits s -> str_all num_char s.
Proof. apply str_all_impl. intros c Hc. left; auto. Qed.
Lemma show_Z_num z : str_all num_char (show_Z z).
Proof.
  destruct z as [|p|p]; cbn [show_Z]; try (apply digits_num, show_N_spec).
  split; [right; simpl; auto 10|]. apply digits_num, show_N_spec.
Qed.
Lemma show_Z_cons z : exists c s, show_Z z = String c s.
Proof.
  destruct z as [|p|p]; cbn [show_Z Z.to_N]; [| |eauto].
  - destruct (show_N_spec 0) as (_ & Hn & _). destruct (show_N 0); [congruence|eauto].
  - destruct (show_N_spec (N.pos p)) as (_ & Hn & _). destruct (show_N (N.pos p)); [congruence|eauto].
Qed.
Lemma digit_not_minus c : is_digit c = true -> c <> "-"%char.
Proof. intros Hc ->. discriminate. Qed.
Lemma show_N_inj a b : show_N a = show_N b -> a = b.
Proof.
  intros E. destruct (show_N_spec a) as (_ & _ & Ea), (show_N_spec b) as (_ & _ & Eb). rewrite E in Ea. lia.
Qed.
Lemma show_N_not_minus n s : show_N n <> String "-" s.
Proof.
  intros E. destruct (show_N_spec n) as (Hd & _ & _). rewrite E in Hd. destruct Hd as [Hd _]. discriminate.
Qed.
Lemma show_Z_inj a b : show_Z a = show_Z b -> a = b.
Proof.
  destruct a as [|p|p], b as [|q|q]; cbn [show_Z Z.to_N]; intros E; auto;
    try (exfalso; eapply show_N_not_minus; eauto; fail);
    try (exfalso; eapply show_N_not_minus; symmetry; eauto; fail);
    try (injection E as E); apply show_N_inj in E; congruence.
Qed.
Lemma show_Z_no_real z : ~ real_text (show_Z z).
Proof.
  intros [_ Hr].
  assert (str_all (fun c => is_digit c = true \/ c = "-"%char) (show_Z z)) as Hd.
  { assert (forall s, all_digits s -> str_all (fun c => is_digit c = true \/ c = "-"%char) s) as Hi.
    { intros s. apply str_all_impl. auto. }
    destruct z; cbn [show_Z]; try (apply Hi, show_N_spec). split; auto. apply Hi, show_N_spec. }
  destruct Hr as [Hr|[Hr|Hr]]; eapply str_all_in in Hr; eauto; destruct Hr; discriminate.
Qed.

(** ** Values *)
Section Ind.
Variable P : json -> Prop.
Hypothesis HNull : P JNull.
Hypothesis HStr : forall s, P (JStr s).
Hypothesis HInt : forall z, P (JInt z).
Hypothesis HReal : forall t, P (JReal t).
Hypothesis HArr : forall l, Forall P l -> P (JArr l).
Hypothesis HObj : forall l, Forall (fun kv => P (snd kv)) l -> P (JObj l).
Fixpoint json_nested_ind (j : json) : P j :=
  match j with
  | JNull => HNull
  | JStr s => HStr s
  | JInt z => HInt z
  | JReal t => HReal t
  | JArr l => HArr l ((fix go l := match l return Forall P l with
                                   | [] => Forall_nil _
                                   | x :: l' => Forall_cons x (json_nested_ind x) (go l') end) l)
  | JObj l => HObj l ((fix go l := match l return Forall (fun kv => P (snd kv)) l with
                                   | [] => Forall_nil _
                                   | x :: l' => Forall_cons x (json_nested_ind (snd x)) (go l') end) l)
  end.
End Ind.

(** Every real in the value satisfies [P]. *)
Inductive json_all (P : string -> Prop) : json -> Prop :=
| ok_null : json_all P JNull
| ok_str s : json_all P (JStr s)
| ok_int z : json_all P (JInt z)
| ok_real t : P t -> json_all P (JReal t)
| ok_arr l : Forall (json_all P) l -> json_all P (JArr l)
| ok_obj l : Forall (fun kv => json_all P (snd kv)) l -> json_all P (JObj l).
(** Every real in the value is a proper real. *)
Notation json_ok := (json_all real_text).

Definition arr_more (n : nat) : list json -> string :=
  fix more (l : list json) : string :=
    match l with
    | [] => break n ++ "]"
    | j' :: l' => "," ++ break (S n) ++ json_text (S n) j' ++ more l'
    end%string.
Definition obj_more (n : nat) : list (string * json) -> string :=
  fix more (l : list (string * json)) : string :=
    match l with
    | [] => break n ++ "}"
    | (k', j') :: l' => "," ++ break (S n) ++ quoted k' ++ ": " ++ json_text (S n) j' ++ more l'
    end%string.
Lemma arr_text n j l : json_text n (JArr (j :: l)) = ("[" ++ break (S n) ++ json_text (S n) j ++ arr_more n l)%string.
Proof. reflexivity. Qed.
Lemma obj_text n k j l : json_text n (JObj ((k, j) :: l))
  = ("{" ++ break (S n) ++ quoted k ++ ": " ++ json_text (S n) j ++ obj_more n l)%string.
Proof. reflexivity. Qed.

Lemma arr_more_nil n : arr_more n [] = break n ++ "]".
Proof. reflexivity. Qed.
Lemma arr_more_cons n j l : arr_more n (j :: l) = "," ++ break (S n) ++ json_text (S n) j ++ arr_more n l.
Proof. reflexivity. Qed.
Lemma obj_more_nil n : obj_more n [] = break n ++ "}".
Proof. reflexivity. Qed.
Lemma obj_more_cons n k j l : obj_more n ((k, j) :: l)
  = "," ++ break (S n) ++ quoted k ++ ": " ++ json_text (S n) j ++ obj_more n l.
Proof. reflexivity. Qed.

Lemma comma_delim r : delim (String "," r).
Proof. simpl. intros [Hc|Hc]; [discriminate|]. simpl in Hc. intuition discriminate. Qed.
Lemma break_delim n r : delim (break n ++ r).
Proof. simpl. intros [Hc|Hc]; [discriminate|]. simpl in Hc. intuition discriminate. Qed.
Lemma arr_more_delim n l r : delim (arr_more n l ++ r).
Proof. destruct l; [exact (break_delim n r)|exact (comma_delim r)]. Qed.
Lemma obj_more_delim n l r : delim (obj_more n l ++ r).
Proof. destruct l as [|[k j] l]; [exact (break_delim n r)|exact (comma_delim r)]. Qed.

Lemma real_cons t : real_text t -> exists c s, t = String c s /\ num_char c.
Proof. intros [Ha Hi]. destruct t as [|c s]; [simpl in Hi; tauto|]. simpl in Ha. exists c, s. tauto. Qed.
Lemma num_char_cases c : num_char c -> is_digit c = true \/ c = "."%char \/ c = "e"%char \/ c = "E"%char \/ c = "+"%char \/ c = "-"%char.
Proof. intros [Hc|Hc]; auto. simpl in Hc. intuition. Qed.

(** Head of the text. *)
Definition head_class (c : ascii) (j : json) : Prop :=
  match j with
  | JNull => c = "n"%char
  | JStr _ => c = """"%char
  | JInt _ | JReal _ => num_char c
  | JArr _ => c = "["%char
  | JObj _ => c = "{"%char
  end.
Lemma text_head n j : json_ok j -> exists c s, json_text n j = String c s /\ head_class c j.
Proof.
  intros Hj. destruct Hj as [|s|z|t Ht|l|l]; cbn [json_text head_class].
  - eauto.
  - unfold quoted. cbn [String.append]. eauto.
  - destruct (show_Z_cons z) as (c & s & E). exists c, s. split; auto. pose proof (show_Z_num z) as Hn. rewrite E in Hn. destruct Hn; auto.
  - apply real_cons in Ht as (c & s & -> & Hc). eauto.
  - destruct l; cbn [String.append]; eauto.
  - destruct l as [|[k j] l]; cbn [String.append]; eauto.
Qed.
Lemma num_char_not c : num_char c -> c <> "n"%char /\ c <> """"%char /\ c <> "["%char /\ c <> "{"%char.
Proof. intros [Hc|Hc]; [|simpl in Hc]; repeat split; intros ->; try discriminate; intuition discriminate. Qed.

Theorem json_text_inj : forall j n j' r r', json_ok j -> json_ok j' -> delim r -> delim r' ->
  (json_text n j ++ r)%string = (json_text n j' ++ r')%string -> j = j' /\ r = r'.
Proof.
  induction j as [|s|z|t|l IH|l IH] using json_nested_ind; intros n j' r r' Hj Hj' Hr Hr' E;
    destruct (text_head n _ Hj) as (c1 & s1 & E1 & H1); destruct (text_head n _ Hj') as (c2 & s2 & E2 & H2);
    assert (c1 = c2) as <- by (rewrite E1, E2 in E; cbn [String.append] in E; congruence);
    destruct j' as [|s'|z'|t'|l'|l']; simpl in H1, H2; subst;
    try discriminate;
    try (apply num_char_not in H1; intuition congruence); try (apply num_char_not in H2; intuition congruence);
    clear E1 E2 s1 s2.
  - simpl in E. injection E as E. auto.
  - simpl json_text in E. apply quoted_inj in E as [-> ->]. auto.
  - simpl in E. apply (span_inj num_char) in E as [E ->]; auto using show_Z_num. apply show_Z_inj in E as ->. auto.
  - exfalso. simpl in E. inversion Hj' as [| | |? Ht| |]; subst.
    apply (span_inj num_char) in E as [E ->]; auto using show_Z_num; [|apply Ht]. apply (show_Z_no_real z). rewrite E. auto.
  - exfalso. simpl in E. inversion Hj as [| | |? Ht| |]; subst.
    apply (span_inj num_char) in E as [E ->]; auto using show_Z_num; [|apply Ht]. apply (show_Z_no_real z'). rewrite <- E. auto.
  - simpl in E. inversion Hj as [| | |? Ht| |]; subst. inversion Hj' as [| | |? Ht'| |]; subst.
    apply (span_inj num_char) in E as [E ->]; auto; [|apply Ht|apply Ht']. subst; auto.
  - inversion Hj as [| | | |? Hl|]; subst. inversion Hj' as [| | | |? Hl'|]; subst. clear Hj Hj' Hr Hr'.
    assert (forall l, Forall (fun j => forall n j' r r', json_ok j -> json_ok j' -> delim r -> delim r' ->
        (json_text n j ++ r)%string = (json_text n j' ++ r')%string -> j = j' /\ r = r') l ->
      forall l' r r', Forall json_ok l -> Forall json_ok l' -> (arr_more n l ++ r)%string = (arr_more n l' ++ r')%string -> l = l' /\ r = r') as Hmore.
    { clear. induction l as [|j l IH]; intros IHl [|j' l'] r r' Hl Hl' E; rewrite ?arr_more_nil, ?arr_more_cons, ?app_assoc_s in E.
      - apply app_inv_head_s, app_inv_head_s in E. auto.
      - discriminate.
      - discriminate.
      - apply app_inv_head_s, app_inv_head_s in E.
        inversion IHl; subst. inversion Hl; subst. inversion Hl'; subst.
        match goal with Hx : forall n j' r r', _ |- _ => apply Hx in E as [-> E] end; auto using arr_more_delim.
        apply IH in E as [-> ->]; auto. }
    destruct l as [|j l], l' as [|j' l'].
    + simpl in E. injection E as E. auto.
    + rewrite arr_text in E. discriminate.
    + rewrite arr_text in E. discriminate.
    + rewrite !arr_text in E. rewrite !app_assoc_s in E. apply app_inv_head_s, app_inv_head_s in E.
      inversion IH; subst. inversion Hl; subst. inversion Hl'; subst.
      match goal with Hx : forall n j' r r', _ |- _ => apply Hx in E as [-> E] end; auto using arr_more_delim.
      apply Hmore in E as [-> ->]; auto.
  - inversion Hj as [| | | | |? Hl]; subst. inversion Hj' as [| | | | |? Hl']; subst. clear Hj Hj' Hr Hr'.
    assert (forall l, Forall (fun kv => forall n j' r r', json_ok (snd kv) -> json_ok j' -> delim r -> delim r' ->
        (json_text n (snd kv) ++ r)%string = (json_text n j' ++ r')%string -> snd kv = j' /\ r = r') l ->
      forall l' r r', Forall (fun kv => json_ok (snd kv)) l -> Forall (fun kv => json_ok (snd kv)) l' ->
        (obj_more n l ++ r)%string = (obj_more n l' ++ r')%string -> l = l' /\ r = r') as Hmore.
    { clear. induction l as [|[k j] l IH]; intros IHl [|[k' j'] l'] r r' Hl Hl' E; rewrite ?obj_more_nil, ?obj_more_cons, ?app_assoc_s in E.
      - apply app_inv_head_s, app_inv_head_s in E. auto.
      - discriminate.
      - discriminate.
      - apply app_inv_head_s, app_inv_head_s in E.
        apply quoted_inj in E as [-> E]. apply app_inv_head_s in E.
        inversion IHl; subst. inversion Hl; subst. inversion Hl'; subst. simpl in *.
        match goal with Hx : forall n j' r r', _ |- _ => apply Hx in E as [-> E] end; auto using obj_more_delim.
        apply IH in E as [-> ->]; auto. }
    destruct l as [|[k j] l], l' as [|[k' j'] l'].
    + simpl in E. injection E as E. auto.
    + rewrite obj_text in E. discriminate.
    + rewrite obj_text in E. discriminate.
    + rewrite !obj_text in E. rewrite !app_assoc_s in E. apply app_inv_head_s, app_inv_head_s in E.
      apply quoted_inj in E as [-> E]. apply app_inv_head_s in E.
      inversion IH; subst. inversion Hl; subst. inversion Hl'; subst. simpl in *.
      match goal with Hx : forall n j' r r', _ |- _ => apply Hx in E as [-> E] end; auto using obj_more_delim.
      apply Hmore in E as [-> ->]; auto.
Qed.

(** ** Trees *)
Lemma map_inj_in {A B C} (f : A -> B) (g : A -> C) l : forall l',
  Forall (fun x => forall y, f x = f y -> g x = g y) l -> map f l = map f l' -> map g l = map g l'.
Proof.
  induction l as [|x l IH]; intros [|y l'] Hl E; simpl in *; try discriminate; auto.
  injection E as Ex E. inversion Hl; subst. f_equal; auto.
Qed.
Lemma map_inj {A B} (f : A -> B) : (forall x y, f x = f y -> x = y) -> forall l l', map f l = map f l' -> l = l'.
Proof.
  intros Hf. induction l as [|x l IH]; intros [|y l'] E; simpl in *; try discriminate; auto.
  injection E as Ex E. f_equal; auto.
Qed.
Lemma j_list_inj {A} (f : A -> json) : (forall x y, f x = f y -> x = y) ->
  forall l l', j_list f l = j_list f l' -> l = l'.
Proof. unfold j_list. intros Hf l l' E. injection E as E. eapply map_inj; eauto. Qed.
Lemma j_opt_inj {A} (f : A -> json) : (forall x y, f x = f y -> x = y) -> (forall x, f x <> JNull) ->
  forall o o', j_opt f o = j_opt f o' -> o = o'.
Proof. intros Hf Hn [x|] [y|] E; simpl in E; auto; try (exfalso; eapply Hn; eauto; fail). f_equal; auto. Qed.
Lemma j_pos_inj p q : j_pos p = j_pos q -> p = q.
Proof. unfold j_pos. intros E. injection E as E. lia. Qed.
Lemma j_symbol_inj a b : j_symbol a = j_symbol b -> a = b.
Proof.
  destruct a as [n p [t|] [q|]], b as [n' p' [t'|] [q'|]]; unfold j_symbol; simpl; intros E; try discriminate;
    injection E; intros; subst; repeat f_equal; lia.
Qed.
Lemma j_symbols_inj a b : j_list j_symbol a = j_list j_symbol b -> a = b.
Proof. apply j_list_inj, j_symbol_inj. Qed.
Ltac pieces E := injection E; clear E; intros;
  repeat match goal with
  | Hx : map j_symbol ?a = map j_symbol ?b |- _ => apply (map_inj _ j_symbol_inj) in Hx
  | Hx : j_pos _ = j_pos _ |- _ => apply j_pos_inj in Hx
  | Hx : Z.of_N ?a = Z.of_N ?b |- _ => apply N2Z.inj in Hx
  end.
Lemma j_predicate_inj a b : j_predicate a = j_predicate b -> a = b.
Proof. destruct a, b. unfold j_predicate. simpl. intros E. pieces E. congruence. Qed.
Lemma j_task_inj a b : j_task a = j_task b -> a = b.
Proof. destruct a, b. unfold j_task. simpl. intros E. pieces E. congruence. Qed.
Lemma j_func_inj a b : j_func a = j_func b -> a = b.
Proof. destruct a, b. unfold j_func. simpl. intros E. pieces E. congruence. Qed.
Lemma j_constr_inj a b : j_constr a = j_constr b -> a = b.
Proof. destruct a, b; simpl; intros E; try discriminate; injection E; intros; congruence. Qed.
Lemma j_requirement_inj a b : j_requirement a = j_requirement b -> a = b.
Proof. destruct a, b; intros E; try discriminate; auto. Qed.
Lemma j_ordering_inj a b : j_ordering a = j_ordering b -> a = b.
Proof.
  destruct a as [|l], b as [|l']; intros E; try discriminate; auto. simpl in E. injection E as E.
  apply map_inj in E; [congruence|]. intros [] [] E'. injection E'; intros; simpl in *; congruence.
Qed.
Lemma obj_field k v l k' v' l' : JObj ((k, v) :: l) = JObj ((k', v') :: l') -> v = v' /\ JObj l = JObj l'.
Proof. intros E. injection E. intros; subst; auto. Qed.
Lemma j_symbol_null x : j_symbol x <> JNull.
Proof. discriminate. Qed.
Lemma j_subtask_inj a b : j_subtask a = j_subtask b -> a = b.
Proof.
  destruct a as [i t ts], b as [i' t' ts']. unfold j_subtask. cbn [sub_id sub_task sub_terms]. intros E.
  apply obj_field in E as [E1 E]. apply obj_field in E as [E2 E]. apply obj_field in E as [E3 _].
  apply j_symbol_inj in E2 as ->. apply j_symbols_inj in E3 as ->. apply j_opt_inj in E1 as ->; auto using j_symbol_inj, j_symbol_null.
Qed.
Lemma j_htn_inj a b : j_htn a = j_htn b -> a = b.
Proof.
  destruct a as [a1 a2 a3 a4], b as [b1 b2 b3 b4]. unfold j_htn. cbn [htn_subtasks htn_ordering_pos htn_orderings htn_constraints]. intros E.
  apply obj_field in E as [E1 E]. apply obj_field in E as [E2 E]. apply obj_field in E as [E3 E]. apply obj_field in E as [E4 _].
  apply (j_list_inj _ j_subtask_inj) in E1 as ->.
  apply j_opt_inj in E2 as ->; [|exact j_pos_inj|discriminate].
  apply j_ordering_inj in E3 as ->.
  apply j_opt_inj in E4 as ->; [auto|apply j_list_inj, j_constr_inj|discriminate].
Qed.
Lemma j_init_inj a b : j_init_tn a = j_init_tn b -> a = b.
Proof.
  destruct a as [a1 a2], b as [b1 b2]. unfold j_init_tn. cbn [itn_params itn_tn]. intros E.
  apply obj_field in E as [E1 E]. apply obj_field in E as [E2 _].
  apply j_opt_inj in E1 as ->; [|apply j_symbols_inj|discriminate]. apply j_htn_inj in E2 as ->. auto.
Qed.

Section Floats.
Context `{F : Floats}.

Lemma j_number_inj a b : j_number a = j_number b -> number_value a = number_value b.
Proof.
  destruct a as [l|z], b as [l'|z']; simpl; intros E; try discriminate; [|congruence].
  destruct (String.eqb_spec (f64_text l) "null") as [->|], (String.eqb_spec (f64_text l') "null") as [->|]; congruence.
Qed.
Lemma j_formula_inj f : forall g, j_formula f = j_formula g -> formula_value f = formula_value g.
Proof.
  induction f using formula_nested_ind; intros g E; destruct g; cbn [j_formula] in E; try discriminate; cbn [formula_value];
    try (unfold j_list in E; injection E; clear E; intros);
    repeat match goal with
    | Hx : map j_symbol ?a = map j_symbol ?b |- _ => apply (map_inj _ j_symbol_inj) in Hx
    | Hx : map j_formula ?a = map j_formula ?b |- _ => eapply map_inj_in in Hx; [|eassumption]
    end; try congruence; try (f_equal; auto; fail).
  - apply N2Z.inj in H0. destruct p, p0; simpl in *. congruence.
  - f_equal; auto using j_number_inj.
Qed.
Lemma j_opt_formula a b : j_opt j_formula a = j_opt j_formula b -> option_map formula_value a = option_map formula_value b.
Proof.
  destruct a as [f|], b as [g|]; simpl; intros E; auto; try (destruct f; discriminate); try (destruct g; discriminate).
  f_equal. apply j_formula_inj; auto.
Qed.
Lemma j_action_inj a b : j_action a = j_action b -> action_value a = action_value b.
Proof.
  destruct a as [a1 a2 a3 a4 a5], b as [b1 b2 b3 b4 b5]. unfold j_action, action_value, j_list.
  cbn [act_name act_pos act_params act_pre act_eff]. intros E. injection E as E1 E2 E3 E4 E5.
  apply N2Z.inj in E2 as ->. apply (map_inj _ j_symbol_inj) in E3 as ->. apply j_opt_formula in E4 as ->. apply j_opt_formula in E5 as ->. congruence.
Qed.
Lemma j_method_inj a b : j_method a = j_method b -> method_value a = method_value b.
Proof.
  destruct a as [a1 a2 a3 a4 a5 a6], b as [b1 b2 b3 b4 b5 b6]. unfold j_method, method_value.
  cbn [m_name m_task m_task_terms m_params m_pre m_tn]. intros E.
  apply obj_field in E as [E1 E]. apply obj_field in E as [E2 E]. apply obj_field in E as [E3 E].
  apply obj_field in E as [E4 E]. apply obj_field in E as [E5 E]. apply obj_field in E as [E6 _].
  apply j_symbol_inj in E1 as ->. apply j_symbol_inj in E2 as ->. apply j_symbols_inj in E3 as ->. apply j_symbols_inj in E4 as ->.
  apply j_opt_formula in E5 as ->. apply j_htn_inj in E6 as ->. auto.
Qed.
Lemma j_domain_inj a b : j_domain a = j_domain b -> domain_value a = domain_value b.
Proof.
  destruct a as [a1 a2 a3 a4 a5 a6 a7 a8 a9], b as [b1 b2 b3 b4 b5 b6 b7 b8 b9]. unfold j_domain, domain_value.
  cbn [d_name d_types d_constants d_reqs d_preds d_tasks d_methods d_actions d_funcs]. intros E.
  apply obj_field in E as [E1 E]. apply obj_field in E as [E2 E]. apply obj_field in E as [E3 E].
  apply obj_field in E as [E4 E]. apply obj_field in E as [E5 E]. apply obj_field in E as [E6 E].
  apply obj_field in E as [E7 E]. apply obj_field in E as [E8 E]. apply obj_field in E as [E9 _].
  injection E1 as ->. apply j_opt_inj in E2 as ->; [|apply j_symbols_inj|discriminate].
  apply j_opt_inj in E3 as ->; [|apply j_symbols_inj|discriminate].
  apply j_list_inj in E4 as ->; [|apply j_requirement_inj]. apply j_list_inj in E5 as ->; [|apply j_predicate_inj].
  apply j_list_inj in E6 as ->; [|apply j_task_inj]. apply j_list_inj in E9 as ->; [|apply j_func_inj].
  injection E7 as E7. apply map_inj_in with (g := method_value) in E7 as ->; [|apply Forall_forall; intros; apply j_method_inj; auto].
  injection E8 as E8. apply map_inj_in with (g := action_value) in E8 as ->; [|apply Forall_forall; intros; apply j_action_inj; auto].
  auto.
Qed.
Lemma j_problem_inj a b : j_problem a = j_problem b -> problem_value a = problem_value b.
Proof.
  destruct a as [a1 a2 a3 a4 a5], b as [b1 b2 b3 b4 b5]. unfold j_problem, problem_value.
  cbn [p_reqs p_init_tn p_init p_goal p_objects]. intros E.
  apply obj_field in E as [E1 E]. apply obj_field in E as [E2 E]. apply obj_field in E as [E3 E].
  apply obj_field in E as [E4 E]. apply obj_field in E as [E5 _].
  apply j_list_inj in E1 as ->; [|apply j_requirement_inj]. apply j_opt_inj in E2 as ->; [|apply j_init_inj|discriminate].
  apply j_list_inj in E3 as ->; [|apply j_predicate_inj]. apply j_opt_formula in E4 as ->. apply j_symbols_inj in E5 as ->. auto.
Qed.
End Floats.

(** *** Exported values are fine *)
Section Fine.
Context `{F : Floats}.
Variable P : string -> Prop.
Hypothesis HF : forall l, f64_text l = "null" \/ P (f64_text l).

Lemma ok_list {A} (f : A -> json) l : (forall x, json_all P (f x)) -> json_all P (j_list f l).
Proof. intros Hf. constructor. apply Forall_forall. intros j Hj. apply in_map_iff in Hj as (x & <- & _). auto. Qed.
Lemma ok_opt {A} (f : A -> json) o : (forall x, json_all P (f x)) -> json_all P (j_opt f o).
Proof. intros Hf. destruct o; simpl; auto. constructor. Qed.
Ltac fields := constructor; repeat constructor; cbn [snd].
Lemma ok_pos p : json_all P (j_pos p).
Proof. fields. Qed.
Lemma ok_symbol s : json_all P (j_symbol s).
Proof. destruct s as [n p [t|] [q|]]; unfold j_symbol; simpl; fields. Qed.
Lemma ok_symbols l : json_all P (j_list j_symbol l).
Proof. apply ok_list, ok_symbol. Qed.
Lemma ok_predicate p : json_all P (j_predicate p).
Proof. fields. apply Forall_forall. intros j Hj. apply in_map_iff in Hj as (x & <- & _). apply ok_symbol. Qed.
Lemma ok_number n : json_all P (j_number n).
Proof.
  destruct n as [l|z]; fields. destruct (String.eqb_spec (f64_text l) "null"); constructor. destruct (HF l); congruence.
Qed.
Lemma ok_obj1 k v : json_all P v -> json_all P (JObj [(k, v)]).
Proof. repeat constructor; auto. Qed.
Lemma ok_arr2 v w : json_all P v -> json_all P w -> json_all P (JArr [v; w]).
Proof. repeat constructor; auto. Qed.
Lemma ok_formulas fs : Forall (fun f => json_all P (j_formula f)) fs -> json_all P (JArr (map j_formula fs)).
Proof. intros Hf. constructor. rewrite Forall_map. auto. Qed.
Lemma ok_formula f : json_all P (j_formula f).
Proof.
  induction f using formula_nested_ind; cbn [j_formula]; try constructor;
    repeat (apply Forall_cons || apply Forall_nil); cbn [snd];
    auto using ok_formulas, ok_arr2, ok_symbols, ok_number, ok_predicate, ok_str.
Qed.
Lemma ok_opt_formula o : json_all P (j_opt j_formula o).
Proof. apply ok_opt, ok_formula. Qed.
Ltac fields' := constructor; repeat (apply Forall_cons || apply Forall_nil); cbn [snd];
  auto using ok_str, ok_int, ok_pos, ok_symbol, ok_symbols, ok_opt_formula.
Lemma ok_task t : json_all P (j_task t).
Proof. fields'. Qed.
Lemma ok_func t : json_all P (j_func t).
Proof. fields'. Qed.
Lemma ok_action t : json_all P (j_action t).
Proof. fields'. Qed.
Lemma ok_subtask t : json_all P (j_subtask t).
Proof. fields'. apply ok_opt, ok_symbol. Qed.
Lemma ok_constr t : json_all P (j_constr t).
Proof. destruct t; apply ok_obj1, ok_arr2; constructor. Qed.
Lemma ok_ordering t : json_all P (j_ordering t).
Proof. destruct t; [constructor|]. apply ok_obj1, ok_list. intros. apply ok_arr2; constructor. Qed.
Lemma ok_htn t : json_all P (j_htn t).
Proof. fields'; auto using ok_list, ok_subtask, ok_opt, ok_pos, ok_ordering, ok_constr. Qed.
Lemma ok_init t : json_all P (j_init_tn t).
Proof. fields'; auto using ok_htn, ok_opt, ok_symbols. Qed.
Lemma ok_method t : json_all P (j_method t).
Proof. fields'; auto using ok_htn. Qed.
Lemma ok_requirement t : json_all P (j_requirement t).
Proof. constructor. Qed.
Lemma ok_domain t : json_all P (j_domain t).
Proof. fields'; auto using ok_list, ok_opt, ok_symbols, ok_requirement, ok_predicate, ok_task, ok_method, ok_action, ok_func. Qed.
Lemma ok_problem t : json_all P (j_problem t).
Proof. fields'; auto using ok_list, ok_opt, ok_requirement, ok_predicate, ok_init. Qed.

End Fine.
