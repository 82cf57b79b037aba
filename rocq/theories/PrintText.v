(** The canonical text of a tree is read back as the tree; every tree the
    parser returns has a canonical text; layout does not matter. *)
From Coq Require Import String Ascii NArith ZArith Bool List Lia PeanoNat.
From Verif Require Import Base Token Lexer Errors Ast Parser AstRel ParserRel ParserProofs ParserStream
  StrFacts SpecLex LexProofs LexProofs2 LexProofs3 SpecGrammar GrammarSound GrammarComplete GrammarTop
  SpecPrint FormulaInd PrintProofs.
Import ListNotations.
Open Scope list_scope.

(** ** Decimal rendering *)
Lemma digit_code n : (n < 10)%N ->
  is_digit (ascii_of_N (48 + n)) = true /\ Z.of_N (code (ascii_of_N (48 + n))) = (Z.of_N n + 48)%Z.
Proof.
  intros Hn. unfold is_digit, in_range, code. rewrite N_ascii_embedding by lia.
  split; [|lia]. apply andb_true_iff; split; apply N.leb_le; lia.
Qed.

Lemma digits_of_fuel_spec : forall fuel n acc,
  (n < 10 ^ N.of_nat fuel)%N -> fuel <> O ->
  exists d, digits_of_fuel fuel n acc = (d ++ acc)%string
    /\ all_digits d /\ d <> ""%string /\ decimal_value d = Z.of_N n.
Proof.
  induction fuel as [|fuel IH]; intros n acc Hn H0; [congruence|].
  cbn [digits_of_fuel]. destruct (N.ltb_spec n 10) as [Hlt|Hge].
  - exists (String (ascii_of_N (48 + n mod 10)) ""). rewrite N.mod_small by lia.
    destruct (digit_code n Hlt) as [H1 H2]. unfold all_digits, decimal_value. cbn [decimal_value_acc str_all String.append].
    repeat split; auto; [discriminate|lia].
  - destruct (digit_code (n mod 10)) as [H1 H2]; [apply N.mod_lt; lia|].
    destruct fuel as [|fuel].
    { change (10 ^ N.of_nat 1)%N with 10%N in Hn. lia. }
    destruct (IH (n / 10)%N (String (ascii_of_N (48 + n mod 10)) acc)) as (d & E & Hd & Hne & Hv); [|congruence|].
    { apply N.div_lt_upper_bound; [lia|].
      rewrite Nat2N.inj_succ, N.pow_succ_r' in Hn. lia. }
    exists (d ++ String (ascii_of_N (48 + n mod 10)) "")%string. rewrite E.
    rewrite app_assoc_s. cbn [String.append]. split; [reflexivity|].
    unfold all_digits in *. rewrite str_all_app. cbn [str_all]. repeat split; auto.
    + apply str_nonempty_app_r; discriminate.
    + unfold decimal_value in *. rewrite decimal_value_snoc, Hv, H2.
      assert (E' := N.div_mod n 10). lia.
Qed.

Lemma show_N_spec n :
  all_digits (show_N n) /\ show_N n <> ""%string /\ decimal_value (show_N n) = Z.of_N n.
Proof.
  destruct (digits_of_fuel_spec (S (N.to_nat (N.size n))) n "") as (d & E & Hd); [|congruence|].
  - rewrite Nat2N.inj_succ, N2Nat.id. apply N.lt_le_trans with (2 ^ N.size n)%N; [apply N.size_gt|].
    apply N.le_trans with (10 ^ N.size n)%N; [apply N.pow_le_mono_l; lia|apply N.pow_le_mono_r; lia].
  - unfold show_N. rewrite E, app_nil_r_s. exact Hd.
Qed.

(** ** Spelling of tokens *)
Section Text.
Context `{Unicode}.

Lemma is_alpha_spec c : is_alpha c = true ->
  latin1_alnum c = true /\ is_digit c = false /\ c <> "-"%char /\ (code c <= 127)%N.
Proof. destruct c as [[] [] [] [] [] [] [] []]; vm_compute; intuition (discriminate || congruence). Qed.

Lemma plain_char_spec c : plain_char c = true ->
  word_byte c /\ (code c <= 127)%N /\ (char_alnum (code c) = true \/ code c = 95%N \/ code c = 45%N).
Proof.
  unfold word_byte.
  destruct c as [[] [] [] [] [] [] [] []]; vm_compute; intuition (discriminate || congruence).
Qed.

Lemma all_plain_spec w : all_plain w = true ->
  str_all word_byte w /\ identifier_text w.
Proof.
  induction w as [|c w IH]; cbn [all_plain]; intros Hw.
  - split; [exact I|]. exists []. split; [reflexivity|constructor].
  - apply andb_true_iff in Hw as [Hc Hw]. apply plain_char_spec in Hc as (H1 & H2 & H3).
    destruct (IH Hw) as [H4 (cps & H5 & H6)]. split; [split; auto|].
    exists (code c :: cps). split.
    + cbn [utf8_decode]. apply N.leb_le in H2. rewrite H2, H5. reflexivity.
    + constructor; auto.
Qed.

Lemma reserved_listed w : reserved w -> In w reserved_words.
Proof.
  intros (t & Ht). destruct t as [k| | |o| | |]; try destruct Ht.
  - destruct k; simpl in Ht; unfold reserved_words; simpl; tauto.
  - destruct o; simpl in Ht; unfold reserved_words; simpl; tauto.
Qed.

Lemma plain_word_written w : plain_word w = true -> Written (TIdent w) w.
Proof.
  destruct w as [|c w]; [discriminate|]. unfold plain_word. intros Hp.
  apply andb_true_iff in Hp as [Hp Hr]. apply andb_true_iff in Hp as [Hc Ha].
  apply all_plain_spec in Ha as [H1 H2]. apply is_alpha_spec in Hc as (H3 & H4 & H5 & _).
  apply wr_ident; auto.
  - simpl. split; [left; auto|auto].
  - intros Hres. apply reserved_listed in Hres. apply negb_true_iff in Hr.
    assert (existsb (String.eqb (String c w)) reserved_words = true) as E; [|congruence].
    apply existsb_exists. exists (String c w). split; auto. apply String.eqb_refl.
Qed.

Lemma token_text_written t : printable t -> Written t (token_text t).
Proof.
  destruct t as [k|w|[l|z]|o|p|r|]; intros Hp.
  - destruct k; cbn [token_text bare_text colon_text keyword_text];
      first [apply wr_bare; simpl; left; reflexivity | apply wr_colon; simpl; left; reflexivity].
  - cbn [token_text]. destruct (plain_word w) eqn:E; [apply plain_word_written; auto|].
    destruct Hp. apply wr_variable; auto.
  - destruct Hp as (d & e & -> & H1 & H2 & H3). apply wr_real; auto.
  - simpl in Hp. cbn [token_text].
    assert (show_Z z = show_N (Z.to_N z)) as ->.
    { destruct z; try reflexivity. lia. }
    destruct (show_N_spec (Z.to_N z)) as (H1 & H2 & H3).
    rewrite Z2N.id in H3 by lia. rewrite <- H3 at 1. apply wr_integer; auto. lia.
  - destruct o; cbn [token_text bare_text colon_text];
      first [constructor; fail | apply wr_bare; simpl; left; reflexivity].
  - destruct p; constructor.
  - destruct r; cbn [token_text bare_text colon_text req_text]; try (exfalso; apply Hp; reflexivity);
      apply wr_colon; simpl; left; reflexivity.
  - destruct Hp.
Qed.

(** A text in which each token is written and followed by a separator. *)
Definition layout_of (ts : list token) (text : string) : Prop :=
  exists l, well_written l /\ map (fun e => fst (fst e)) l = ts /\ text = text_of l.

Lemma canonical_layout ts : Forall printable ts ->
  exists l, well_written l /\ map (fun e => fst (fst e)) l = ts /\ tokens_text ts = text_of l
    /\ lines_of 1 l = on 1 ts.
Proof.
  induction 1 as [|t ts Ht _ (l & H1 & H2 & H3 & H4)].
  - exists []. repeat split; constructor.
  - exists ((t, token_text t, " "%string) :: l). repeat split.
    + constructor; auto. split; [apply token_text_written; auto|].
      split; [apply gap_ws; [left; auto|constructor]|left; auto].
    + simpl. rewrite H2. reflexivity.
    + simpl. rewrite H3. reflexivity.
    + simpl. rewrite <- H4. reflexivity.
Qed.

Theorem text_round_trip a n :
  wf_ast a -> Forall printable (ast_tokens a) -> (length (ast_tokens a) <= n)%nat ->
  parse n (ast_text a) = Ok (ast_at 1 a).
Proof.
  intros Hw Hp Hn. destruct (canonical_layout _ Hp) as (l & H1 & H2 & H3 & H4).
  destruct (written_gap_reads l "" 1%N H1 gap_nil) as (g & ln & Hr & Hg).
  simpl in Hr. change (1 + count_nl "")%N with 1%N in Hr. rewrite H4, <- H3 in Hr.
  eapply parse_complete; [exact Hr|apply ast_ok; exact Hw|].
  unfold on. rewrite map_length. exact Hn.
Qed.

(** ** Layout independence *)
Lemma reads_streams (RL : N -> N -> Prop) : (forall x y, RL x y) ->
  forall ts st st' us s s',
  Reads st ts st' -> Reads s us s' -> map fst ts = map fst us ->
  streams_rel RL st' s' -> streams_rel RL st s.
Proof.
  intros HR ts st st' us s s' H1. revert us s s'.
  induction H1 as [st|st t st1 ts st2 Eg Hr IH]; intros us s s' H2 Em Hs.
  - destruct us; [|discriminate]. inversion H2; subst. exact Hs.
  - destruct us as [|[u lu] us]; [discriminate|]. inversion H2; subst. simpl in Em.
    injection Em as -> Em. intros n. destruct n as [|n]; [constructor|].
    cbn [stream]. rewrite Eg. match goal with E : get_token s = _ |- _ => rewrite E end.
    constructor; [|eapply IH; eauto].
    split; [constructor|apply HR].
Qed.

Lemma eof_streams (RL : N -> N -> Prop) g g' ln ln' : (forall x y, RL x y) ->
  Gap g -> Gap g' -> streams_rel RL (mkL g ln) (mkL g' ln').
Proof.
  intros HR Hg Hg' n. revert g g' ln ln' Hg Hg'.
  induction n as [|n IH]; intros g g' ln ln' Hg Hg'; [constructor|].
  cbn [stream]. rewrite !gap_eof by auto. constructor; [|apply IH; constructor].
  split; [constructor|apply HR].
Qed.

Lemma layouts_parse ts p p' n :
  layout_of ts p -> layout_of ts p' ->
  outcome_rel (fun _ _ => True) (ast_rel (fun _ _ => True)) (parse n p) (parse n p').
Proof.
  intros (l & H1 & H2 & ->) (l' & H1' & H2' & ->). apply parse_stream; auto.
  destruct (written_gap_reads l "" 1%N H1 gap_nil) as (g & ln & Hr & Hg).
  destruct (written_gap_reads l' "" 1%N H1' gap_nil) as (g' & ln' & Hr' & Hg').
  eapply reads_streams; [auto|exact Hr|exact Hr'| |apply eof_streams; auto].
  assert (forall k l, map fst (lines_of k l) = map (fun e => fst (fst e)) l) as E.
  { intros k l0. revert k. induction l0 as [|[[t x] y] l0 IH]; intros k; simpl; auto. rewrite IH; auto. }
  rewrite !E, H2, H2'. reflexivity.
Qed.

(** Trees equal up to positions. *)
Section AtRel.
Variables (RL : N -> N -> Prop) (L : N).
Lemma sym_rel_at s s' : sym_rel RL s s' -> sym_at L s = sym_at L s'.
Proof. destruct 1; reflexivity. Qed.
Lemma plain_rel_at s s' : plain_rel RL s s' -> sym_at L s = sym_at L s'.
Proof. destruct 1; reflexivity. Qed.
Lemma map_rel_at {A B C} (R : A -> B -> Prop) (f : A -> C) (g : B -> C) l l' :
  (forall x y, R x y -> f x = g y) -> Forall2 R l l' -> map f l = map g l'.
Proof. intros Hf. induction 1; simpl; f_equal; auto. Qed.
Lemma opt_rel_at {A B C} (R : A -> B -> Prop) (f : A -> C) (g : B -> C) o o' :
  (forall x y, R x y -> f x = g y) -> opt_rel R o o' -> option_map f o = option_map g o'.
Proof. intros Hf. destruct 1; simpl; f_equal; auto. Qed.
Definition syms_rel_at l l' : syms_rel RL l l' -> map (sym_at L) l = map (sym_at L) l' :=
  map_rel_at _ _ _ l l' sym_rel_at.
Lemma pred_rel_at p p' : pred_rel RL p p' -> pred_at L p = pred_at L p'.
Proof. destruct 1. unfold pred_at; simpl. f_equal. apply syms_rel_at; auto. Qed.
Lemma func_rel_at p p' : func_rel RL p p' -> func_at L p = func_at L p'.
Proof. destruct 1. unfold func_at; simpl. f_equal. apply syms_rel_at; auto. Qed.
Lemma task_rel_at p p' : task_rel RL p p' -> task_at L p = task_at L p'.
Proof. destruct 1. unfold task_at; simpl. f_equal. apply syms_rel_at; auto. Qed.
Lemma formula_rel_at f f' : formula_rel RL f f' -> formula_at L f = formula_at L f'.
Proof.
  revert f f'. apply (formula_rel_mut RL (fun f f' _ => formula_at L f = formula_at L f')
    (fun l l' _ => map (formula_at L) l = map (formula_at L) l')); intros; simpl; f_equal; auto;
    try (apply pred_rel_at; auto); try (apply syms_rel_at; auto).
Qed.
Lemma subtask_rel_at s s' : subtask_rel RL s s' -> subtask_at L s = subtask_at L s'.
Proof.
  destruct 1. unfold subtask_at; simpl. f_equal.
  - eapply opt_rel_at; [|eassumption]. apply plain_rel_at.
  - apply plain_rel_at; auto.
  - eapply map_rel_at; [|eassumption]. apply plain_rel_at.
Qed.
Lemma htn_rel_at h h' : htn_rel RL h h' -> htn_at L h = htn_at L h'.
Proof.
  destruct 1; unfold htn_at; simpl; f_equal.
  - eapply map_rel_at; [|eassumption]. apply subtask_rel_at.
  - eapply map_rel_at; [|eassumption]. apply subtask_rel_at.
  - eapply opt_rel_at; [|eassumption]. reflexivity.
Qed.
Lemma method_rel_at m m' : method_rel RL m m' -> method_at L m = method_at L m'.
Proof.
  destruct 1. unfold method_at; simpl. f_equal; try (apply plain_rel_at; auto); try (apply syms_rel_at; auto).
  - eapply opt_rel_at; [|eassumption]. apply formula_rel_at.
  - apply htn_rel_at; auto.
Qed.
Lemma action_rel_at m m' : action_rel RL m m' -> action_at L m = action_at L m'.
Proof.
  destruct 1. unfold action_at; simpl. f_equal; try (apply syms_rel_at; auto);
    (eapply opt_rel_at; [|eassumption]; apply formula_rel_at).
Qed.
Lemma ast_rel_at a a' : ast_rel RL a a' -> ast_at L a = ast_at L a'.
Proof.
  destruct 1 as [? ? []|? ? []]; unfold ast_at, domain_at, problem_at; simpl; f_equal; f_equal;
    try (eapply opt_rel_at; [|eassumption]; apply syms_rel_at);
    try (eapply opt_rel_at; [|eassumption]; apply formula_rel_at);
    try (apply syms_rel_at; assumption);
    try (eapply map_rel_at; [|eassumption]; auto using pred_rel_at, func_rel_at, task_rel_at, method_rel_at, action_rel_at).
  eapply opt_rel_at; [|eassumption]. intros x y []. simpl. f_equal.
  - eapply opt_rel_at; [|eassumption]; apply syms_rel_at.
  - apply htn_rel_at; auto.
Qed.
End AtRel.

Lemma at_idem_syms L l : map (sym_at L) (map (sym_at L) l) = map (sym_at L) l.
Proof. rewrite map_map. apply map_ext. intros [? ? ? []]; reflexivity. Qed.
Lemma at_idem_map {A} (f : A -> A) l : (forall x, f (f x) = f x) -> map f (map f l) = map f l.
Proof. intros Hf. rewrite map_map. apply map_ext. exact Hf. Qed.
Lemma at_idem_opt {A} (f : A -> A) o : (forall x, f (f x) = f x) -> option_map f (option_map f o) = option_map f o.
Proof. intros Hf. destruct o; simpl; f_equal; auto. Qed.
Lemma at_idem_formula L f : formula_at L (formula_at L f) = formula_at L f.
Proof.
  assert (forall fs, Forall (fun f => formula_at L (formula_at L f) = formula_at L f) fs ->
    map (formula_at L) (map (formula_at L) fs) = map (formula_at L) fs) as Hl.
  { intros fs Hfs. rewrite map_map. apply map_ext_in. rewrite Forall_forall in Hfs. exact Hfs. }
  revert f. apply formula_nested_ind; intros; cbn [formula_at]; f_equal; auto using at_idem_syms.
  unfold pred_at; cbn [pred_name pred_vars]. rewrite at_idem_syms. reflexivity.
Qed.
Lemma at_idem_htn L h : htn_at L (htn_at L h) = htn_at L h.
Proof.
  unfold htn_at; cbn [htn_subtasks htn_ordering_pos htn_orderings htn_constraints]. f_equal.
  - apply at_idem_map. intros [i t l]. unfold subtask_at; cbn [sub_id sub_task sub_terms]. f_equal.
    + apply at_idem_opt. intros [? ? ? []]; reflexivity.
    + destruct t as [? ? ? []]; reflexivity.
    + apply at_idem_syms.
  - destruct (htn_ordering_pos h); reflexivity.
Qed.
Lemma at_idem L a : ast_at L (ast_at L a) = ast_at L a.
Proof.
  destruct a as [d|p]; unfold ast_at, domain_at, problem_at; simpl; f_equal; f_equal;
    try (apply at_idem_opt; intros; apply at_idem_syms);
    try (apply at_idem_opt; intros; apply at_idem_formula);
    try apply at_idem_syms; try (apply at_idem_map; intros []; unfold pred_at, func_at, task_at; simpl; f_equal; apply at_idem_syms).
  - apply at_idem_map. intros m. unfold method_at; simpl. f_equal; try apply at_idem_syms; try apply at_idem_htn.
    + destruct (m_name m) as [? ? ? []]; reflexivity.
    + destruct (m_task m) as [? ? ? []]; reflexivity.
    + apply at_idem_opt; intros; apply at_idem_formula.
  - apply at_idem_map. intros m. unfold action_at; simpl. f_equal; try apply at_idem_syms;
      apply at_idem_opt; intros; apply at_idem_formula.
  - destruct (p_init_tn p) as [t|]; simpl; auto. f_equal. f_equal; [|apply at_idem_htn].
    apply at_idem_opt; intros; apply at_idem_syms.
Qed.

Theorem layout_round_trip a n text :
  wf_ast a -> Forall printable (ast_tokens a) -> (length (ast_tokens a) <= n)%nat ->
  layout_of (ast_tokens a) text ->
  exists a', parse n text = Ok a' /\ ast_at 1 a' = ast_at 1 a.
Proof.
  intros Hw Hp Hn Hl. assert (E := text_round_trip a n Hw Hp Hn).
  destruct (canonical_layout _ Hp) as (l & H1 & H2 & H3 & _).
  assert (layout_of (ast_tokens a) (ast_text a)) as Hc.
  { exists l. repeat split; auto. }
  assert (Hr := layouts_parse _ _ _ n Hc Hl). rewrite E in Hr.
  inversion Hr as [x a' Hx E1 E2| | |]; subst. exists a'. split; auto.
  apply (ast_rel_at _ 1) in Hx. rewrite <- Hx. apply at_idem.
Qed.
End Text.
