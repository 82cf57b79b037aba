(** C81: real numbers keep their value. *)
From Coq Require Import String Ascii NArith ZArith Bool List Lia.
From Verif Require Import Base Token StrFacts PrintText Lexer SpecLex LexProofs PropsLex SpecIo SpecJson Json JsonProofs JsonText
  PropsIo PropsJson Real64 SpecReal RealProofs RealProofs2 RealProofs3.
Import ListNotations.
Open Scope string_scope.
Open Scope N_scope.

(** A real number as a document may write it: digits, a dot, perhaps digits. *)
Definition written (l : string) : Prop := exists i f, SpecJson.digits i /\ only_digits f /\ l = i ++ "." ++ f.

(** ** Reading a text *)
Lemma after_digits i r i' r' : only_digits i -> only_digits i' ->
  match r with EmptyString => True | String c _ => is_digit c <> true end ->
  match r' with EmptyString => True | String c _ => is_digit c <> true end -> i ++ r = i' ++ r' -> i = i' /\ r = r'.
Proof. apply (span_inj (fun c => is_digit c = true)). Qed.
Lemma reads_once t c p c' p' : reads t c p -> reads t c' p' -> c = c' /\ p = p'.
Proof.
  intros Hr Hr'. destruct Hr as [i f c [Hi _] Hf Ev|i f x z c [Hi _] [Hf _] Hx Ev|i x z c [Hi _] Hx Ev];
    remember (i ++ _) as t eqn:Et in Hr'; destruct Hr' as [i' f' c' [Hi' _] Hf' Ev'|i' f' x' z' c' [Hi' _] [Hf' _] Hx' Ev'|i' x' z' c' [Hi' _] Hx' Ev'];
    (apply after_digits in Et as [-> Et]; [|assumption|assumption|cbn; discriminate|cbn; discriminate]); cbn [String.append] in Et; try discriminate.
  - injection Et as ->. split; auto. lia.
  - injection Et as Et. rewrite <- (app_nil_r_s f) in Et. apply after_digits in Et as [_ Et]; cbn; auto; discriminate.
  - injection Et as Et. rewrite <- (app_nil_r_s f') in Et. apply after_digits in Et as [_ Et]; cbn; auto; discriminate.
  - injection Et as Et. apply after_digits in Et as [-> Et]; cbn; auto; try discriminate. injection Et as ->.
    split; [lia|]. rewrite (integer_fun _ _ _ Hx Hx'). reflexivity.
  - injection Et as ->. split; [lia|]. eapply integer_fun; eauto.
Qed.
Lemma amounts_same t c p : reads t c p -> forall a b, amounts_to t a b <-> decimal_is c p a b.
Proof.
  intros Hr a b. split.
  - intros (c' & p' & Hr' & Hd). destruct (reads_once _ _ _ _ _ Hr Hr') as [-> ->]. exact Hd.
  - intros Hd. exists c, p. auto.
Qed.
Lemma stands_decimal t c p : (forall a b, amounts_to t a b <-> decimal_is c p a b) -> forall u, stands_for t u <-> u = round_decimal c p.
Proof.
  intros Ht u. split.
  - intros (a & b & Hb & Ha & Hn). apply Ht in Ha. rewrite <- (round_decimal_is _ _ _ _ Hb Ha).
    apply (nearest_unique a b); auto. apply round_nearest; auto.
  - intros ->. exists (c * power_of_ten p), (power_of_ten (- p)). split; [apply ten_pos|]. split; [apply Ht, decimal_self|].
    apply round_nearest, ten_pos.
Qed.

(** ** Literals *)
Lemma digit_value c : is_digit c = true -> Z.of_N (code c - 48) = (Z.of_N (code c) - 48)%Z.
Proof. unfold is_digit, in_range. intros Hc. apply andb_true_iff in Hc as [Hc _]. apply N.leb_le in Hc. lia. Qed.
Lemma literal_digits : forall f dot m k r, only_digits f ->
  literal_acc dot m k (f ++ r) = literal_acc dot (Z.to_N (decimal_value_acc (Z.of_N m) f)) (if dot then k + N.of_nat (String.length f) else k) r
  /\ (0 <= decimal_value_acc (Z.of_N m) f)%Z.
Proof.
  induction f as [|c f IH]; intros dot m k r Hf.
  - cbn [String.append decimal_value_acc String.length]. rewrite N2Z.id. change (N.of_nat 0) with 0. rewrite N.add_0_r.
    destruct dot; split; auto; lia.
  - destruct Hf as [Hc Hf]. cbn [String.append literal_acc decimal_value_acc String.length]. rewrite Hc.
    destruct (IH dot (10 * m + (code c - 48)) (if dot then k + 1 else k) r Hf) as [E1 E2].
    rewrite N2Z.inj_add, N2Z.inj_mul, digit_value in E1, E2 by exact Hc.
    replace (Z.of_N m * 10 + (Z.of_N (code c) - 48))%Z with (Z.of_N 10 * Z.of_N m + (Z.of_N (code c) - 48))%Z by ring.
    split; [|exact E2]. rewrite E1. destruct dot; [|reflexivity]. f_equal. lia.
Qed.
Lemma literal_reads l : written l -> reads l (fst (literal l)) (- Z.of_N (snd (literal l))).
Proof.
  intros (i & f & Hi & Hf & ->). unfold literal.
  destruct (literal_digits i false 0 0 ("." ++ f) (proj1 Hi)) as [E H0]. rewrite E. cbn [String.append literal_acc].
  change (is_digit ".") with false. cbn [literal_acc].
  destruct (literal_digits f true (Z.to_N (decimal_value_acc (Z.of_N 0) i)) 0 "" Hf) as [E' H1]. rewrite app_nil_r_s in E'. rewrite E'.
  cbn [literal_acc fst snd]. rewrite Z2N.id in * by exact H0. rewrite N.add_0_l, nat_N_Z. fold (len f).
  change (String "." f) with ("." ++ f). apply rd_dot; auto.
  unfold decimal_value. rewrite value_app. symmetry. apply Z2N.id. exact H1.
Qed.
Lemma double_decimal l : double l = round_decimal (fst (literal l)) (- Z.of_N (snd (literal l))).
Proof.
  unfold double. apply round_decimal_is; [apply N.neq_0_lt_0, N.pow_nonzero; discriminate|].
  apply decimal_tens. rewrite Z.opp_involutive. unfold power_of_ten. rewrite N2Z.id.
  replace (Z.to_N (- Z.of_N (snd (literal l)))) with 0 by lia. rewrite N.pow_0_r. ring.
Qed.
Lemma double_binary l : binary53 (double l).
Proof. apply round_binary, N.neq_0_lt_0, N.pow_nonzero. discriminate. Qed.

(** ** Texts *)
Lemma shortest_pos u : binary53 u -> 0 < u -> 0 < fst (shortest u).
Proof.
  intros Hu Hp. pose proof (shortest_ok u Hu) as Ho. destruct (N.eq_dec (fst (shortest u)) 0) as [E|]; [|lia].
  rewrite E, round_zero in Ho. lia.
Qed.
(** The text of a finite double is read as a decimal that rounds to it. *)
Lemma zero_text : real_literal "0.0" /\ reads "0.0" 0 (-1).
Proof.
  split; [|exact (rd_dot "0" "0" 0 ltac:(split; cbn; auto; discriminate) ltac:(cbn; auto) eq_refl)].
  exists "0", 0%Z, ".0", "". split; [exact (in_natural "0" (show_N_natural 0))|]. split; [reflexivity|]. left. split; [|auto].
  exists "0". split; [split; cbn; auto; discriminate|reflexivity].
Qed.
Lemma text_reads u : binary53 u -> u < beyond -> real_literal (double_text u)
  /\ exists c p, (forall a b, amounts_to (double_text u) a b <-> decimal_is c p a b) /\ round_decimal c p = u /\ c < 10 ^ 17
     /\ (0 < u -> c = fst (shortest u) /\ p = snd (shortest u)).
Proof.
  intros Hu Hb. unfold double_text. destruct (N.leb_spec beyond u) as [|_]; [lia|]. destruct (N.eqb_spec u 0) as [->|H0].
  - destruct zero_text as [Hr Hz]. split; [exact Hr|]. exists 0, (-1)%Z. split; [apply amounts_same; exact Hz|].
    split; [apply round_zero|]. split; [reflexivity|lia].
  - assert (0 < u) as Hp by lia. destruct (layout_reads (fst (shortest u)) (snd (shortest u)) (shortest_pos u Hu Hp)) as [Hr (c' & p' & Hr' & Hd)].
    split; [exact Hr|]. exists (fst (shortest u)), (snd (shortest u)). split; [|split; [apply shortest_ok; auto|split; [apply shortest_seventeen; auto|auto]]].
    intros a b. rewrite <- Hd. apply amounts_same. exact Hr'.
Qed.
Lemma real_not_null : ~ real_literal "null".
Proof. intros Hr. apply real_literal_text in Hr as [[[H|H] _] _]; [discriminate|]. simpl in H. intuition discriminate. Qed.
Lemma text_null u : binary53 u -> double_text u = "null" <-> beyond <= u.
Proof.
  intros Hu. destruct (N.le_gt_cases beyond u) as [Hb|Hb].
  - split; auto. intros _. unfold double_text. apply N.leb_le in Hb. rewrite Hb. reflexivity.
  - split; [|lia]. intros E. exfalso. apply real_not_null. rewrite <- E. apply text_reads; auto.
Qed.

(** ** C81 *)
Local Existing Instance ieee.

(** The reals the tokenizer delivers. *)
Theorem C81_literals `{Unicode} : forall st l st', get_token st = (LTok (TNumber (Real l)), st') -> written l.
Proof.
  intros st l st' E. apply C07_content in E as (d & e & -> & Hd & Hn & He). exists d, e. split; [split; auto|]. auto.
Qed.

(** A literal is read as the double nearest to it, the even one of two, and as no other. *)
Theorem C81_nearest : forall l, written l -> stands_for l (double l) /\ forall u, stands_for l u -> u = double l.
Proof.
  intros l Hl. pose proof (stands_decimal l _ _ (amounts_same _ _ _ (literal_reads l Hl))) as Hs.
  split; [apply Hs, double_decimal|]. intros u Hu. apply Hs in Hu. rewrite double_decimal. exact Hu.
Qed.

(** What is exported for it stands for the same double, unless that is infinite:
    then null is exported, and this happens from 2^1024 - 2^970 on. *)
Theorem C81_round_trip : forall l, written l -> finite (double l) ->
  stands_for (f64_text l) (double l) /\ forall u, stands_for (f64_text l) u -> u = double l.
Proof.
  intros l Hl Hf. unfold finite in Hf. rewrite <- beyond_units in Hf.
  destruct (text_reads (double l) (double_binary l) Hf) as (_ & c & p & Ha & Hr & _).
  pose proof (stands_decimal _ _ _ Ha) as Hs. change (f64_text l) with (double_text (double l)). rewrite <- Hr at 2.
  split; [apply Hs; reflexivity|]. intros u Hu. apply Hs in Hu. congruence.
Qed.
Theorem C81_infinite : forall l a b, written l -> 0 < b -> amounts_to l a b ->
  (f64_text l = "null" <-> b * (2 ^ 1024 - 2 ^ 970) <= a) /\ (f64_text l = "null" <-> ~ finite (double l)).
Proof.
  intros l a b Hl Hb Ha. change (f64_text l) with (double_text (double l)).
  rewrite (text_null (double l) (double_binary l)). split.
  - apply (amounts_same _ _ _ (literal_reads l Hl)) in Ha. rewrite double_decimal, <- (round_decimal_is _ _ _ _ Hb Ha).
    rewrite (beyond_iff a b Hb). replace ((2 ^ 54 - 1) * 2 ^ 970) with (2 ^ 1024 - 2 ^ 970) by (apply N.eqb_eq; vm_compute; reflexivity). reflexivity.
  - unfold finite. rewrite <- beyond_units. lia.
Qed.

(** Two literals are exported alike exactly when they are the same double, or both infinite. *)
Theorem C81_same_text : forall l l', written l -> written l' ->
  (f64_text l = f64_text l' <-> double l = double l' \/ ~ finite (double l) /\ ~ finite (double l')).
Proof.
  intros l l' Hl Hl'. change (f64_text l) with (double_text (double l)). change (f64_text l') with (double_text (double l')).
  pose proof (text_null _ (double_binary l)) as N1. pose proof (text_null _ (double_binary l')) as N2. unfold finite. rewrite <- beyond_units. split.
  - intros E. destruct (N.le_gt_cases beyond (double l)) as [Hb|Hb]; [right|left].
    + apply N1 in Hb as E1. rewrite E in E1. apply N2 in E1. lia.
    + destruct (N.le_gt_cases beyond (double l')) as [Hb'|Hb'].
      { apply N2 in Hb'. rewrite <- E in Hb'. apply N1 in Hb'. lia. }
      destruct (text_reads _ (double_binary l) Hb) as (_ & c & p & Ha & Hr & _).
      destruct (text_reads _ (double_binary l') Hb') as (_ & c' & p' & Ha' & Hr' & _). rewrite <- E in Ha'.
      rewrite <- Hr, <- Hr'. apply (stands_decimal _ _ _ Ha'), (stands_decimal _ _ _ Ha). reflexivity.
  - intros [->|[H1 H2]]; auto. rewrite (proj2 N1), (proj2 N2) by lia. reflexivity.
Qed.

(** A literal of at most fifteen significant digits, zero or not smaller than
    2^-1022, is exported with exactly its value. *)
Theorem C81_fifteen : forall l m q, written l -> m < 10 ^ 15 -> (forall a b, amounts_to l a b <-> decimal_is m q a b) ->
  finite (double l) -> (forall a b, 0 < b -> amounts_to l a b -> a = 0 \/ b <= a * 2 ^ 1022) ->
  forall a b, amounts_to (f64_text l) a b <-> amounts_to l a b.
Proof.
  intros l m q Hl Hm Hv Hf Hr a b. unfold finite in Hf. rewrite <- beyond_units in Hf.
  assert (double l = round_decimal m q) as Ed.
  { symmetry. apply (C81_nearest l Hl). apply (stands_decimal l m q Hv). reflexivity. }
  change (f64_text l) with (double_text (double l)). 
  destruct (text_reads (double l) (double_binary l) Hf) as (_ & c & p & Ha & Hc & _ & Hs). rewrite Ha.
  pose proof (Hr _ _ (ten_pos (- q)) (proj2 (Hv _ _) (decimal_self m q))) as [Hz|Hn].
  - (* zero *) assert (m = 0) as -> by (pose proof (ten_pos q); nia). rewrite round_zero in Ed.
    revert Ha. rewrite Ed. change (double_text 0) with "0.0". intros Ha.
    rewrite <- Ha, Hv. rewrite (amounts_same _ _ _ (proj2 zero_text)). rewrite !decimal_tens. pose proof (ten_pos (- q)). pose proof (ten_pos (- -1)). nia.
  - assert (2 ^ 52 <= round_decimal m q) as Hb.
    { unfold round_decimal. assert (binary53 (2 ^ 52)) as Hbin by (exists 1, 52; split; reflexivity).
      rewrite <- (round_exact _ Hbin) at 1. apply round_mono; [apply units_pos|apply ten_pos|].
      unfold units. replace (2 ^ 1074) with (2 ^ 1022 * 2 ^ 52) by (rewrite <- N.pow_add_r; reflexivity).
      rewrite N.mul_assoc, (N.mul_comm (2 ^ 52)). apply N.mul_le_mono_r. exact Hn. }
    assert (0 < double l) as Hp by (rewrite Ed; eapply N.lt_le_trans; [|exact Hb]; reflexivity).
    destruct (Hs Hp) as [-> ->]. rewrite Hv, Ed in *. apply shortest_fifteen; auto.
Qed.

(** The exported decimal has at most seventeen digits, every decimal for the same
    double needs at least as many places, and none with as many is closer. *)
Theorem C81_shortest : forall l, written l -> finite (double l) -> 0 < double l ->
  exists c p, c < 10 ^ 17 /\ (forall a b, amounts_to (f64_text l) a b <-> decimal_is c p a b)
    /\ (forall c' p' a b, (p < p')%Z -> 0 < b -> decimal_is c' p' a b -> ~ nearest a b (double l))
    /\ forall c' a a' b, 0 < b -> amounts_to (f64_text l) a b -> decimal_is c' p a' b -> nearest a' b (double l) ->
         distance a b (double l) <= distance a' b (double l).
Proof.
  intros l Hl Hf Hp. unfold finite in Hf. rewrite <- beyond_units in Hf.
  destruct (text_reads (double l) (double_binary l) Hf) as (_ & c & p & Ha & Hc & Hs & Hsh). exists c, p.
  split; [exact Hs|]. split; [exact Ha|]. destruct (Hsh Hp) as [Ec Ep].
  assert (forall c' p' a b, 0 < b -> decimal_is c' p' a b -> nearest a b (double l) -> round_decimal c' p' = double l) as Hrd.
  { intros c' p' a b Hb Hd Hn. rewrite <- (round_decimal_is _ _ _ _ Hb Hd).
    apply (nearest_unique a b); auto. apply round_nearest; auto. }
  split.
  - intros c' p' a b Hlt Hb Hd Hn. rewrite Ep in Hlt. apply (shortest_max (double l) (double_binary l) Hp Hf c' p' Hlt). eauto.
  - intros c' a a' b Hb Hx Hd Hn. apply Ha in Hx.
    pose proof (shortest_closest (double l) (double_binary l) Hp (N.to_nat 1384) 309) as Hcl. fold (shortest (double l)) in Hcl.
    rewrite (surjective_pairing (shortest (double l))), <- Ec, <- Ep in Hcl. apply (Hcl c' a a' b); eauto.
Qed.

(** It has an exponent exactly from 10^16 on and below 10^-5. *)
Theorem C81_exponent : forall l a b, written l -> finite (double l) -> 0 < double l -> 0 < b -> amounts_to (f64_text l) a b ->
  (str_in "e" (f64_text l) <-> b * 10 ^ 16 <= a \/ a * 10 ^ 5 < b).
Proof.
  intros l a b Hl Hf Hp Hb Ha. unfold finite in Hf. rewrite <- beyond_units in Hf.
  destruct (text_reads (double l) (double_binary l) Hf) as (_ & c & p & Hv & _ & _ & Hs). apply Hv in Ha. destruct (Hs Hp) as [-> ->].
  pose proof (shortest_pos _ (double_binary l) Hp) as Hc.
  destruct (exponent_range _ _ _ _ Hc Hb Ha) as [E1 E2]. rewrite <- E1, <- E2. rewrite <- layout_exponent by exact Hc.
  change (f64_text l) with (double_text (double l)). unfold double_text.
  destruct (N.leb_spec beyond (double l)) as [|_]; [lia|]. destruct (N.eqb_spec (double l) 0) as [|_]; [lia|]. reflexivity.
Qed.

(** What C33, C44 and C57 assume about the texts of real numbers holds. *)
Theorem C81_assumptions : floats_ok ieee /\ forall l, f64_text l = "null" \/ real_literal (f64_text l).
Proof.
  assert (forall l, f64_text l = "null" \/ real_literal (f64_text l)) as Hr.
  { intros l. change (f64_text l) with (double_text (double l)). destruct (N.le_gt_cases beyond (double l)) as [Hb|Hb].
    - left. apply text_null; auto using double_binary.
    - right. apply text_reads; auto using double_binary. }
  split; [|exact Hr]. intros l. destruct (Hr l) as [E|E]; [left|right]; auto. apply real_literal_text. exact E.
Qed.

(** With more digits the exported value may differ from the written one. *)
Theorem C81_all_digits_kept_refuted : ~ forall l, written l -> finite (double l) ->
  forall a b, amounts_to l a b <-> amounts_to (f64_text l) a b.
Proof.
  intros Hall. assert (written "9007199254740993.0") as Hw.
  { exists "9007199254740993", "0". split; [split; [cbn; auto 30|discriminate]|]. split; [cbn; auto|reflexivity]. }
  assert (f64_text "9007199254740993.0" = "9007199254740992.0") as Et by (vm_compute; reflexivity).
  assert (amounts_to "9007199254740993.0" 9007199254740993 1) as Ha.
  { exists 90071992547409930, (-1)%Z. split; [exact (literal_reads _ Hw)|reflexivity]. }
  assert (finite (double "9007199254740993.0")) as Hf by (apply N.ltb_lt; vm_compute; reflexivity).
  pose proof (proj1 (Hall "9007199254740993.0" Hw Hf 9007199254740993 1) Ha) as Ha'. clear Hf Ha Hall. rewrite Et in Ha'.
  assert (written "9007199254740992.0") as Hw'.
  { exists "9007199254740992", "0". split; [split; [cbn; auto 30|discriminate]|]. split; [cbn; auto|reflexivity]. }
  apply (proj1 (amounts_same _ _ _ (literal_reads _ Hw') _ _)) in Ha'. vm_compute in Ha'. discriminate.
Qed.

(** Examples: the hypotheses are met, and what the texts look like. *)
Example C81_written : written "0.10" /\ written "5." /\ finite (double "0.10") /\ 0 < double "0.10".
Proof.
  split; [exists "0", "10"; split; [split; [cbn; auto|discriminate]|]; split; [cbn; auto|reflexivity]|].
  split; [exists "5", ""; split; [split; [cbn; auto|discriminate]|]; split; [cbn; auto|reflexivity]|].
  split; apply N.ltb_lt; vm_compute; reflexivity.
Qed.
Example C81_tenth : (forall a b, amounts_to "0.10" a b <-> decimal_is 1 (-1) a b) /\
  (forall a b, 0 < b -> amounts_to "0.10" a b -> a = 0 \/ b <= a * 2 ^ 1022) /\ f64_text "0.10" = "0.1".
Proof.
  assert (forall a b, amounts_to "0.10" a b <-> decimal_is 1 (-1) a b) as Hv.
  { intros a b. rewrite (amounts_same _ _ _ (literal_reads "0.10" (proj1 C81_written))).
    change (fst (literal "0.10")) with 10. change (- Z.of_N (snd (literal "0.10")))%Z with (-2)%Z. cbn [decimal_is]. change (10 ^ 2) with 100. change (10 ^ 1) with 10. lia. }
  split; [exact Hv|]. split; [|vm_compute; reflexivity]. intros a b Hb Ha. apply Hv in Ha. cbn [decimal_is] in Ha. right.
  change (10 ^ 1) with 10 in Ha. apply N.le_trans with (m := a * 10); [lia|]. apply N.mul_le_mono_l. apply N.leb_le. vm_compute. reflexivity.
Qed.
Example C81_layouts : map f64_text ["5."; "0.000001"; "123456789012345678.0"] = ["5.0"; "1e-6"; "1.2345678901234568e17"].
Proof. vm_compute. reflexivity. Qed.
(** A literal of 310 digits is infinite. *)
Example C81_null : f64_text ("1" ++ zeros 309 ++ ".") = "null".
Proof. vm_compute. reflexivity. Qed.

Definition C81_all := (@C81_literals, C81_nearest, C81_round_trip, C81_infinite, C81_same_text, C81_fifteen, C81_shortest, C81_exponent,
  C81_assumptions, C81_all_digits_kept_refuted).
