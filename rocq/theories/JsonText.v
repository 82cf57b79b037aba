(** The rendered export is a JSON text of the exported value, JSON texts have one
    reading, and a value describes at most one syntax tree. *)
From Coq Require Import String Ascii NArith ZArith Bool List Lia.
From Verif Require Import Base Token Lexer Errors Ast Parser Api Json StrFacts SpecLex SpecPrint FormulaInd PrintText AstLines
  SpecIo JsonProofs SpecJson.
Import ListNotations.
Open Scope list_scope.
Open Scope string_scope.

(** ** Whitespace *)
Lemma ws_blanks n : ws (blanks n).
Proof. induction n as [|n IH]; [exact I|]. unfold ws in *. simpl. unfold ws_char. simpl. auto 8. Qed.
Lemma ws_break n : ws (break n).
Proof. split; [unfold ws_char; simpl; auto|]. apply ws_blanks. Qed.
Lemma ws_nil : ws "".
Proof. exact I. Qed.
Lemma ws_blank : ws " ".
Proof. split; [unfold ws_char; simpl; auto|exact I]. Qed.

(** ** Strings *)
Lemma hex_value_hex n : (n < 16)%N -> hex_value (hex n) n.
Proof.
  intros Hn. unfold hex. destruct (N.ltb_spec n 10) as [Hl|Hl]; [constructor; auto|].
  assert (n = 10 + (n - 10))%N as E by lia. rewrite E at 2.
  replace (87 + n)%N with (97 + (n - 10))%N by lia. constructor. lia.
Qed.
Lemma escape_char_text c : char_text (escape_char c) c.
Proof.
  unfold escape_char. set (n := N_of_ascii c). assert (c = ascii_of_N n) as E by (symmetry; apply ascii_N_embedding).
  destruct (N.eqb_spec n 34) as [E'|Hn1]; [rewrite E, E'; constructor|].
  destruct (N.eqb_spec n 92) as [E'|Hn2]; [rewrite E, E'; constructor|].
  destruct (N.eqb_spec n 8) as [E'|_]; [rewrite E, E'; constructor|].
  destruct (N.eqb_spec n 9) as [E'|_]; [rewrite E, E'; constructor|].
  destruct (N.eqb_spec n 10) as [E'|_]; [rewrite E, E'; constructor|].
  destruct (N.eqb_spec n 12) as [E'|_]; [rewrite E, E'; constructor|].
  destruct (N.eqb_spec n 13) as [E'|_]; [rewrite E, E'; constructor|].
  destruct (N.ltb_spec n 32) as [Hl|Hl].
  - assert (n = 16 * (n / 16) + n mod 16)%N as Ed by (apply N.div_mod; lia).
    assert (n mod 16 < 16)%N as Hm by (apply N.mod_lt; lia).
    assert (n / 16 < 16)%N as Hd by (apply N.div_lt_upper_bound; lia).
    rewrite E. rewrite Ed at 3. apply ct_hex; auto using hex_value_hex. rewrite <- Ed. lia.
  - apply ct_plain; auto.
    + intros E'. apply Hn1. unfold n. rewrite E'. reflexivity.
    + intros E'. apply Hn2. unfold n. rewrite E'. reflexivity.
Qed.
Lemma escape_text s : chars_text (escape s) s.
Proof. induction s as [|c s IH]; cbn [escape]; constructor; auto using escape_char_text. Qed.
Lemma quoted_text s : string_text (quoted s) s.
Proof. exists (escape s). split; [apply escape_text|reflexivity]. Qed.

(** Value of a hexadecimal digit. *)
Definition unhex (c : ascii) : N :=
  let n := N_of_ascii c in if (n <? 58)%N then (n - 48)%N else if (n <? 71)%N then (n - 55)%N else (n - 87)%N.
Lemma hex_value_fun c x : hex_value c x -> x = unhex c.
Proof.
  unfold unhex. intros [n Hn|n Hn|n Hn]; rewrite N_ascii_embedding by lia.
  - destruct (N.ltb_spec (48 + n) 58); lia.
  - destruct (N.ltb_spec (97 + n) 58); [lia|]. destruct (N.ltb_spec (97 + n) 71); lia.
  - destruct (N.ltb_spec (65 + n) 58); [lia|]. destruct (N.ltb_spec (65 + n) 71); lia.
Qed.
Lemma char_text_inj t c t' c' r r' : char_text t c -> char_text t' c' -> t ++ r = t' ++ r' -> c = c' /\ r = r'.
Proof.
  intros Ht Ht'. destruct Ht; destruct Ht'; cbn [String.append]; intros E; try discriminate E;
    try (injection E; intros; subst; try congruence; auto; fail).
  injection E; intros; subst. split; auto.
  repeat match goal with Hx : hex_value _ _ |- _ => apply hex_value_fun in Hx end. congruence.
Qed.
Lemma char_text_cons t c : char_text t c -> exists a s, t = String a s /\ a <> """"%char.
Proof. intros []; cbn [String.append]; do 2 eexists; (split; [reflexivity|]); auto; discriminate. Qed.
Lemma chars_text_inj t s : chars_text t s -> forall t' s' r r', chars_text t' s' ->
  t ++ String """" r = t' ++ String """" r' -> s = s' /\ r = r'.
Proof.
  induction 1 as [|t c u s Hc Hu IH]; intros t' s' r r' Ht' E; destruct Ht' as [|t' c' u' s' Hc' Hu'];
    rewrite ?app_assoc_s in E; cbn [String.append] in E.
  - injection E; auto.
  - destruct (char_text_cons _ _ Hc') as (a & z & -> & Ha). cbn [String.append] in E. congruence.
  - destruct (char_text_cons _ _ Hc) as (a & z & -> & Ha). cbn [String.append] in E. congruence.
  - destruct (char_text_inj _ _ _ _ _ _ Hc Hc' E) as [-> E']. destruct (IH _ _ _ _ Hu' E') as [-> ->]. auto.
Qed.
Lemma string_text_inj t s t' s' r r' : string_text t s -> string_text t' s' -> t ++ r = t' ++ r' -> s = s' /\ r = r'.
Proof.
  intros (u & Hu & ->) (u' & Hu' & ->) E. cbn [String.append] in E. injection E as E. rewrite !app_assoc_s in E.
  eapply chars_text_inj; eauto.
Qed.

(** ** Numbers *)
Lemma digits_no_zero : forall fuel n acc, (n < 10 ^ N.of_nat fuel)%N -> (0 < n)%N -> fuel <> O ->
  ~ starts_with "0" (digits_of_fuel fuel n acc).
Proof.
  induction fuel as [|fuel IH]; intros n acc Hn H0 Hf; [congruence|].
  cbn [digits_of_fuel]. destruct (N.ltb_spec n 10) as [Hlt|Hge].
  - rewrite N.mod_small by lia. unfold starts_with. intros E.
    assert (N_of_ascii (ascii_of_N (48 + n)) = 48)%N as E' by (rewrite E; reflexivity).
    rewrite N_ascii_embedding in E' by lia. lia.
  - destruct fuel as [|fuel]; [change (10 ^ N.of_nat 1)%N with 10%N in Hn; lia|].
    apply IH; [|apply N.div_str_pos; lia|congruence].
    apply N.div_lt_upper_bound; [lia|]. rewrite Nat2N.inj_succ, N.pow_succ_r' in Hn. lia.
Qed.
Lemma show_N_natural n : natural (show_N n).
Proof.
  destruct (show_N_spec n) as (Hd & Hn & _). split; [split; auto|].
  destruct (N.eq_dec n 0) as [->|H0]; [left; reflexivity|right].
  apply digits_no_zero; [|lia|congruence].
  rewrite Nat2N.inj_succ, N2Nat.id. apply N.lt_le_trans with (2 ^ N.size n)%N; [apply N.size_gt|].
  apply N.le_trans with (10 ^ N.size n)%N; [apply N.pow_le_mono_l; lia|apply N.pow_le_mono_r; lia].
Qed.
Lemma show_Z_text z : integer_text (show_Z z) z.
Proof.
  destruct z as [|p|p]; cbn [show_Z].
  - exact (in_natural "0" (show_N_natural 0)).
  - replace (Z.pos p) with (decimal_value (show_N (Z.to_N (Z.pos p)))) at 2; [constructor; apply show_N_natural|].
    destruct (show_N_spec (Z.to_N (Z.pos p))) as (_ & _ & ->). reflexivity.
  - replace (Z.neg p) with (- decimal_value (show_N (N.pos p)))%Z; [constructor; apply show_N_natural|].
    destruct (show_N_spec (N.pos p)) as (_ & _ & ->). reflexivity.
Qed.

Lemma integer_chars t z : integer_text t z -> str_all (fun c => is_digit c = true \/ c = "-"%char) t /\ t <> "".
Proof.
  intros [s [[Hd Hn] _]|s [[Hd Hn] _]].
  - split; auto. eapply str_all_impl; [|exact Hd]. auto.
  - split; [|discriminate]. split; auto. eapply str_all_impl; [|exact Hd]. auto.
Qed.
Lemma integer_num t z : integer_text t z -> str_all num_char t.
Proof.
  intros Hi. apply integer_chars in Hi as [Ha _]. eapply str_all_impl; [|exact Ha].
  intros c [Hc| ->]; [left; auto|right; simpl; auto 10].
Qed.
Lemma integer_fun t z z' : integer_text t z -> integer_text t z' -> z = z'.
Proof.
  intros Hz Hz'. destruct Hz as [s [[Hd Hn] _]|s [[Hd Hn] _]]; inversion Hz' as [s' [[Hd' Hn'] _]|s' [[Hd' Hn'] _]]; subst; auto.
  - destruct Hd; discriminate.
  - destruct Hd'; discriminate.
Qed.
Lemma digits_num' d : digits d -> str_all num_char d.
Proof. intros [Hd _]. apply digits_num, Hd. Qed.
Lemma exponent_num e : exponent e -> str_all num_char e /\ (str_in "e" e \/ str_in "E" e).
Proof.
  intros (c & g & d & Hc & Hg & Hd & ->). apply digits_num' in Hd.
  assert (forall x, In x ["."; "e"; "E"; "+"; "-"]%char -> num_char x) as Hn by (intros x Hx; right; exact Hx).
  split.
  - rewrite !str_all_app. repeat split; auto.
    + simpl in Hc. destruct Hc as [<-|[<-|[]]]; split; try exact I; apply Hn; simpl; auto.
    + simpl in Hg. destruct Hg as [<-|[<-|[<-|[]]]]; simpl; auto; split; try exact I; apply Hn; simpl; auto 8.
  - simpl in Hc. destruct Hc as [<-|[<-|[]]]; simpl; auto.
Qed.
Lemma str_in_app_l c a b : str_in c a -> str_in c (a ++ b).
Proof. induction a; simpl; tauto. Qed.
Lemma str_in_app_r c a b : str_in c b -> str_in c (a ++ b).
Proof. induction a; simpl; tauto. Qed.
Lemma real_literal_text t : real_literal t -> real_text t.
Proof.
  intros (i & z & f & e & Hi & -> & Hfe). apply integer_num in Hi.
  assert (str_all num_char f /\ str_all num_char e /\ (str_in "." f \/ str_in "e" e \/ str_in "E" e)) as (Hf & He & Hin).
  { destruct Hfe as [[(d & Hd & ->) He]|[-> He]].
    - split; [split; [right; simpl; auto|apply digits_num'; auto]|].
      split; [|left; simpl; auto]. destruct He as [->|He]; [exact I|apply exponent_num; auto].
    - apply exponent_num in He as [He Hc]. repeat split; auto. }
  split; [rewrite !str_all_app; auto|].
  destruct Hin as [Hin|[Hin|Hin]]; [left|right; left|right; right]; apply str_in_app_r;
    [apply str_in_app_l|apply str_in_app_r|apply str_in_app_r]; auto.
Qed.
Lemma integer_no_real t z : integer_text t z -> ~ real_text t.
Proof.
  intros Hi [_ Hr]. apply integer_chars in Hi as [Hd _].
  destruct Hr as [Hr|[Hr|Hr]]; eapply str_all_in in Hr; eauto; destruct Hr; discriminate.
Qed.

(** ** Rendering *)
Lemma app_cons c s r : String c s ++ r = String c (s ++ r).
Proof. reflexivity. Qed.
Lemma json_text_denotes : forall j n, json_all real_literal j -> denotes (json_text n j) j.
Proof.
  induction j as [|s|z|t|l IH|l IH] using json_nested_ind; intros n Hj.
  - constructor.
  - constructor. apply quoted_text.
  - constructor. apply show_Z_text.
  - inversion Hj. constructor. auto.
  - destruct l as [|j l]; [exact (dn_no_elements "" ws_nil)|].
    inversion Hj as [| | | |? Hl|]; subst. clear Hj.
    assert (forall l j, Forall (fun j => forall n, json_all real_literal j -> denotes (json_text n j) j) (j :: l) ->
      Forall (json_all real_literal) (j :: l) ->
      exists u, break (S n) ++ json_text (S n) j ++ arr_more n l = u ++ "]" /\ elements u (j :: l)) as Hmore.
    { clear. induction l as [|k l IH]; intros j IHl Hl; inversion IHl; subst; inversion Hl; subst.
      - exists (break (S n) ++ json_text (S n) j ++ break n). rewrite arr_more_nil, !app_assoc_s. split; auto.
        constructor; auto using ws_break.
      - destruct (IH k) as (u & Eu & Hu); auto.
        exists (break (S n) ++ json_text (S n) j ++ "" ++ "," ++ u). rewrite arr_more_cons, Eu, !app_assoc_s. split; [reflexivity|].
        constructor; auto using ws_break, ws_nil. }
    rewrite arr_text. destruct (Hmore l j IH Hl) as (u & -> & Hu). apply dn_array. auto.
  - destruct l as [|[k j] l]; [exact (dn_no_members "" ws_nil)|].
    inversion Hj as [| | | | |? Hl]; subst. clear Hj.
    assert (forall l k j, Forall (fun kv => forall n, json_all real_literal (snd kv) -> denotes (json_text n (snd kv)) (snd kv)) ((k, j) :: l) ->
      Forall (fun kv => json_all real_literal (snd kv)) ((k, j) :: l) ->
      exists u, break (S n) ++ quoted k ++ ": " ++ json_text (S n) j ++ obj_more n l = u ++ "}" /\ members u ((k, j) :: l)) as Hmore.
    { clear. induction l as [|[k' j'] l IH]; intros k j IHl Hl; inversion IHl; subst; inversion Hl; subst; cbn [snd] in *.
      - exists (break (S n) ++ quoted k ++ "" ++ ":" ++ " " ++ json_text (S n) j ++ break n).
        rewrite obj_more_nil, !app_assoc_s. split; auto.
        constructor; auto using ws_break, ws_nil, ws_blank, quoted_text.
      - destruct (IH k' j') as (u & Eu & Hu); auto.
        exists (break (S n) ++ quoted k ++ "" ++ ":" ++ " " ++ json_text (S n) j ++ "" ++ "," ++ u).
        rewrite obj_more_cons, Eu, !app_assoc_s. split; [reflexivity|].
        constructor; auto using ws_break, ws_nil, ws_blank, quoted_text. }
    rewrite obj_text. destruct (Hmore l k j IH Hl) as (u & -> & Hu). apply dn_object. auto.
Qed.

(** ** One reading *)
Scheme denotes_mut := Induction for denotes Sort Prop
with elements_mut := Induction for elements Sort Prop
with members_mut := Induction for members Sort Prop.
Combined Scheme reading_ind from denotes_mut, elements_mut, members_mut.

Lemma denotes_head t j : denotes t j -> exists c s, t = String c s /\ head_class c j.
Proof.
  intros Hd. destruct Hd as [|t s (u & _ & ->)|t z Hi|t Hr|w Hw|t js He|w Hw|t fs Hm]; cbn [String.append head_class]; eauto.
  - pose proof (integer_num _ _ Hi) as Hn. apply integer_chars in Hi as [_ Hne].
    destruct t as [|c s]; [congruence|]. destruct Hn. eauto.
  - apply real_literal_text, real_cons in Hr. auto.
Qed.
Lemma head_class_ws c j : head_class c j -> ~ ws_char c /\ c <> "]"%char.
Proof.
  unfold ws_char. destruct j; simpl; intros Hc; try (subst; split; [intuition discriminate|discriminate]; fail);
    destruct Hc as [Hc|Hc]; split; try intros Hi; try intros ->; simpl in *; try discriminate;
    try (intuition (subst; discriminate)).
Qed.
Definition no_ws (r : string) : Prop := match r with EmptyString => True | String c _ => ~ ws_char c end.
Lemma ws_span w w' r r' : ws w -> ws w' -> no_ws r -> no_ws r' -> w ++ r = w' ++ r' -> w = w' /\ r = r'.
Proof. apply span_inj. Qed.
Lemma no_ws_denotes t j r : denotes t j -> no_ws (t ++ r).
Proof. intros Hd. destruct (denotes_head _ _ Hd) as (c & s & -> & Hc). apply head_class_ws in Hc. simpl. tauto. Qed.
Lemma no_ws_string t s r : string_text t s -> no_ws (t ++ r).
Proof. intros (u & _ & ->). simpl. unfold ws_char. simpl. intuition discriminate. Qed.
Lemma no_ws_char c r : In c ["]"; "}"; ","; ":"]%char -> no_ws (String c r).
Proof. simpl. unfold ws_char. simpl. intuition (subst; discriminate). Qed.
Lemma ws_delim w c r : ws w -> In c ["]"; "}"; ","; ":"]%char -> delim (w ++ String c r).
Proof.
  intros Hw Hc. destruct w as [|a w]; simpl.
  - unfold num_char. simpl in *. intuition (subst; discriminate).
  - destruct Hw as [Hw _]. unfold ws_char, num_char in *. simpl in *. intuition (subst; discriminate).
Qed.

Lemma heads t j t' j' r r' : denotes t j -> denotes t' j' -> t ++ r = t' ++ r' -> exists c, head_class c j /\ head_class c j'.
Proof.
  intros Hd Hd' E. destruct (denotes_head _ _ Hd) as (c & s & -> & Hc). destruct (denotes_head _ _ Hd') as (c' & s' & -> & Hc').
  cbn [String.append] in E. injection E as <- _. eauto.
Qed.
Lemma no_elements w r u js r' : ws w -> elements u js -> w ++ String "]" r = u ++ String "]" r' -> False.
Proof.
  intros Hw He E. destruct He as [w1 t w2 j H1 Hd H2|w1 t w2 j u js H1 Hd H2 _];
    rewrite !app_assoc_s in E; apply ws_span in E as [_ E]; eauto using no_ws_denotes;
    try (apply no_ws_char; simpl; auto; fail);
    destruct (denotes_head _ _ Hd) as (c & s & -> & Hc); apply head_class_ws in Hc; cbn [String.append] in E; intuition congruence.
Qed.
Lemma no_members w r u fs r' : ws w -> members u fs -> w ++ String "}" r = u ++ String "}" r' -> False.
Proof.
  intros Hw He E. destruct He as [w1 k key w2 w3 t w4 j H1 Hk H2 H3 Hd H4|w1 k key w2 w3 t w4 j u fs H1 Hk H2 H3 Hd H4 _];
    rewrite !app_assoc_s in E; apply ws_span in E as [_ E]; eauto using no_ws_string;
    try (apply no_ws_char; simpl; auto; fail);
    destruct Hk as (v & _ & ->); discriminate.
Qed.
Lemma number_span t t' r r' : str_all num_char t -> str_all num_char t' -> delim r -> delim r' ->
  t ++ r = t' ++ r' -> t = t' /\ r = r'.
Proof. apply span_inj. Qed.

Ltac same_kind Hd' E :=
  match type of Hd' with denotes ?t' ?j' =>
  match goal with Hd : denotes ?t ?j |- _ => lazymatch j with j' => fail | _ =>
    let c := fresh "c" in let H1 := fresh "H1" in let H2 := fresh "H2" in
    destruct (heads _ _ _ _ _ _ Hd Hd' E) as (c & H1 & H2);
    destruct Hd'; cbn [head_class] in H1, H2; subst; try discriminate;
    try (apply num_char_not in H1; intuition congruence); try (apply num_char_not in H2; intuition congruence)
  end end end.

Theorem one_reading :
  (forall t j, denotes t j -> forall t' j' r r', denotes t' j' -> delim r -> delim r' ->
     t ++ r = t' ++ r' -> j = j' /\ r = r')
  /\ (forall t js, elements t js -> forall t' js' r r', elements t' js' ->
     t ++ String "]" r = t' ++ String "]" r' -> js = js' /\ r = r')
  /\ (forall t fs, members t fs -> forall t' fs' r r', members t' fs' ->
     t ++ String "}" r = t' ++ String "}" r' -> fs = fs' /\ r = r').
Proof.
  apply reading_ind.
  - intros t' j' r r' Hd' _ _ E. pose proof dn_null as Hd. same_kind Hd' E. injection E; auto.
  - intros t s Hs t' j' r r' Hd' _ _ E. pose proof (dn_string _ _ Hs) as Hd. same_kind Hd' E.
    destruct (string_text_inj _ _ _ _ _ _ Hs H E) as [-> ->]. auto.
  - intros t z Hi t' j' r r' Hd' Hr Hr' E. pose proof (dn_integer _ _ Hi) as Hd. same_kind Hd' E.
    + apply number_span in E as [-> ->]; eauto using integer_num. split; auto. f_equal. eapply integer_fun; eauto.
    + exfalso. pose proof (real_literal_text _ H) as Ht.
      apply number_span in E as [-> ->]; eauto using integer_num; [|apply Ht]. eapply integer_no_real; eauto.
  - intros t Hi t' j' r r' Hd' Hr Hr' E. pose proof (dn_real _ Hi) as Hd. pose proof (real_literal_text _ Hi) as Ht. same_kind Hd' E.
    + exfalso. apply number_span in E as [-> ->]; eauto using integer_num; [|apply Ht]. eapply integer_no_real; eauto.
    + pose proof (real_literal_text _ H) as Ht'.
      apply number_span in E as [-> ->]; auto; [apply Ht|apply Ht'].
  - intros w Hw t' j' r r' Hd' _ _ E. pose proof (dn_no_elements _ Hw) as Hd. same_kind Hd' E;
      rewrite !app_assoc_s in E; cbn [String.append] in E; injection E as E.
    + apply ws_span in E as [-> E]; auto; try (apply no_ws_char; simpl; auto). injection E; auto.
    + exfalso. eapply no_elements; eauto.
  - intros t js He IH t' j' r r' Hd' _ _ E. pose proof (dn_array _ _ He) as Hd. same_kind Hd' E;
      rewrite !app_assoc_s in E; cbn [String.append] in E; injection E as E.
    + exfalso. eapply no_elements; eauto.
    + eapply IH in E as [-> ->]; eauto.
  - intros w Hw t' j' r r' Hd' _ _ E. pose proof (dn_no_members _ Hw) as Hd. same_kind Hd' E;
      rewrite !app_assoc_s in E; cbn [String.append] in E; injection E as E.
    + apply ws_span in E as [-> E]; auto; try (apply no_ws_char; simpl; auto). injection E; auto.
    + exfalso. eapply no_members; eauto.
  - intros t js He IH t' j' r r' Hd' _ _ E. pose proof (dn_object _ _ He) as Hd. same_kind Hd' E;
      rewrite !app_assoc_s in E; cbn [String.append] in E; injection E as E.
    + exfalso. eapply no_members; eauto.
    + eapply IH in E as [-> ->]; eauto.
  - intros w1 t w2 j H1 Hd IH H2 t' js' r r' He' E.
    destruct He' as [v1 t' v2 j' V1 Hd' V2|v1 t' v2 j' u' js' V1 Hd' V2 Hu'];
      rewrite !app_assoc_s in E; apply ws_span in E as [-> E]; eauto using no_ws_denotes;
      cbn [String.append] in E; eapply IH in E as [-> E]; eauto;
      try (apply ws_delim; simpl; auto; fail);
      apply ws_span in E as [-> E]; auto; try (apply no_ws_char; simpl; auto; fail).
    + injection E; auto.
    + discriminate.
  - intros w1 t w2 j u js H1 Hd IH H2 Hu IHu t' js' r r' He' E.
    destruct He' as [v1 t' v2 j' V1 Hd' V2|v1 t' v2 j' u' js' V1 Hd' V2 Hu'];
      rewrite !app_assoc_s in E; apply ws_span in E as [-> E]; eauto using no_ws_denotes;
      cbn [String.append] in E; eapply IH in E as [-> E]; eauto;
      try (apply ws_delim; simpl; auto; fail);
      apply ws_span in E as [-> E]; auto; try (apply no_ws_char; simpl; auto; fail).
    + discriminate.
    + injection E as E. eapply IHu in E as [-> ->]; eauto.
  - intros w1 k key w2 w3 t w4 j H1 Hk H2 H3 Hd IH H4 t' js' r r' He' E.
    destruct He' as [v1 k' key' v2 v3 t' v4 j' V1 Hk' V2 V3 Hd' V4|v1 k' key' v2 v3 t' v4 j' u' js' V1 Hk' V2 V3 Hd' V4 Hu'];
      rewrite !app_assoc_s in E; apply ws_span in E as [-> E]; eauto using no_ws_string;
      apply (string_text_inj _ _ _ _ _ _ Hk Hk') in E as [-> E];
      apply ws_span in E as [-> E]; auto; try (apply no_ws_char; simpl; auto 8; fail);
      cbn [String.append] in E; injection E as E; apply ws_span in E as [-> E]; eauto using no_ws_denotes;
      eapply IH in E as [-> E]; eauto;
      try (apply ws_delim; simpl; auto; fail);
      apply ws_span in E as [-> E]; auto; try (apply no_ws_char; simpl; auto; fail).
    + injection E; auto.
    + discriminate.
  - intros w1 k key w2 w3 t w4 j u js H1 Hk H2 H3 Hd IH H4 Hu IHu t' js' r r' He' E.
    destruct He' as [v1 k' key' v2 v3 t' v4 j' V1 Hk' V2 V3 Hd' V4|v1 k' key' v2 v3 t' v4 j' u' js' V1 Hk' V2 V3 Hd' V4 Hu'];
      rewrite !app_assoc_s in E; apply ws_span in E as [-> E]; eauto using no_ws_string;
      apply (string_text_inj _ _ _ _ _ _ Hk Hk') in E as [-> E];
      apply ws_span in E as [-> E]; auto; try (apply no_ws_char; simpl; auto 8; fail);
      cbn [String.append] in E; injection E as E; apply ws_span in E as [-> E]; eauto using no_ws_denotes;
      eapply IH in E as [-> E]; eauto;
      try (apply ws_delim; simpl; auto; fail);
      apply ws_span in E as [-> E]; auto; try (apply no_ws_char; simpl; auto; fail).
    + discriminate.
    + injection E as E. eapply IHu in E as [-> ->]; eauto.
Qed.
