(** Seventeen digits, and the layout of the text (C81). *)
From Coq Require Import String Ascii NArith ZArith Bool List Lia.
From Verif Require Import Base StrFacts PrintText SpecIo SpecJson Json JsonProofs JsonText Real64 SpecReal RealProofs RealProofs2.
Import ListNotations.
Open Scope string_scope.
Open Scope N_scope.

(** ** Seventeen digits *)
Lemma gap_multiple m n t : m <> n -> 2 ^ t <= (m * 2 ^ t - n * 2 ^ t) + (n * 2 ^ t - m * 2 ^ t).
Proof. rewrite <- !N.mul_sub_distr_r, <- N.mul_add_distr_r. pose proof (pow2_pos t). intros. nia. Qed.
Lemma binary_gap u w : binary53 u -> binary53 w -> u <> w -> u <= 2 ^ 53 * ((u - w) + (w - u)).
Proof.
  intros (m & s & -> & Hm) (n & t & -> & Hn) Hne. destruct (N.le_gt_cases s t) as [Hle|Hgt].
  - replace t with (t - s + s) in * by lia. rewrite N.pow_add_r, N.mul_assoc in *. set (n' := n * 2 ^ (t - s)) in *.
    assert (m <> n') by (intros ->; auto). pose proof (gap_multiple m n' s H) as Hg. pose proof (pow2_pos s).
    apply N.le_trans with (m := 2 ^ 53 * 2 ^ s); [apply N.mul_le_mono_r; lia|]. apply N.mul_le_mono_l. exact Hg.
  - replace s with (s - t + t) in * by lia. rewrite N.pow_add_r, N.mul_assoc in *. set (m' := m * 2 ^ (s - t)) in *.
    assert (m' <> n) as Hne' by (intros ->; auto). pose proof (pow2_pos t) as Ht.
    rewrite <- !N.mul_sub_distr_r, <- N.mul_add_distr_r, N.mul_assoc. apply N.mul_le_mono_r.
    clearbody m'. change (2 ^ 53) with 9007199254740992 in *. lia.
Qed.
Lemma round_close a b u : 0 < b -> binary53 u -> 2 ^ 54 * distance a b u < u * b -> round64 a b = u.
Proof.
  intros Hb Hu Hd. destruct (N.eq_dec (round64 a b) u) as [|Hne]; auto. exfalso.
  destruct (round_nearest a b Hb) as [Hr Hn].
  assert (distance a b (round64 a b) <= distance a b u) as H1 by (destruct (Hn u Hu) as [|[]]; [congruence|lia|lia]).
  pose proof (binary_gap u (round64 a b) Hu Hr (fun e => Hne (eq_sym e))) as Hg.
  apply (N.mul_le_mono_r _ _ b) in Hg. rewrite <- N.mul_assoc, N.mul_add_distr_r, !N.mul_sub_distr_r in Hg.
  unfold distance in *. clear - Hd H1 Hg. change (2 ^ 53) with 9007199254740992 in *. change (2 ^ 54) with 18014398509481984 in *.
  generalize dependent (round64 a b * b). generalize dependent (u * b). generalize dependent (a * units). intros. lia.
Qed.
Lemma shorten_near u p c : shorten u p = Some c -> c * (units * power_of_ten p) <= u * power_of_ten (- p) + units * power_of_ten p.
Proof.
  unfold shorten. rewrite scale_units. set (n := u * power_of_ten (- p)). set (d := units * power_of_ten p).
  assert (0 < d) as Hd by (apply N.mul_pos_pos; auto using ten_pos, units_pos).
  assert (n / d * d <= n) as Hn by (rewrite N.mul_comm; apply N.mul_div_le; lia).
  destruct (_ <? _); [discriminate|].
  assert (forall x, x = n / d \/ x = n / d + 1 -> x * d <= n + d) as Hx.
  { intros x [-> | ->]; [|rewrite N.mul_add_distr_r, N.mul_1_l]; lia. }
  intros E. apply Hx.
  destruct (round_decimal (n / d) p =? u), (round_decimal (n / d + 1) p =? u); try discriminate; injection E as <-; auto.
  destruct (_ ?= _); auto. destruct (N.odd _); auto.
Qed.
Lemma shortest_near u : forall fuel p, let '(c, q) := shortest_from fuel u p in
  c * (units * power_of_ten q) <= u * power_of_ten (- q) + units * power_of_ten q.
Proof.
  induction fuel as [|f IH]; intros p; cbn [shortest_from].
  - change (power_of_ten (-1074)) with 1. change (power_of_ten (- -1074)) with (10 ^ 1074). rewrite five_ten.
    apply N.le_trans with (m := u * (5 ^ 1074 * units)); [apply N.eq_le_incl; ring|apply N.le_add_r].
  - destruct (shorten u p) as [c|] eqn:E; [apply shorten_near; auto|apply IH].
Qed.
Lemma nearest_multiple u p : binary53 u -> 2 ^ 53 * (units * power_of_ten p) < u * power_of_ten (- p) -> exists c, round_decimal c p = u.
Proof.
  intros Hu Hs. set (n := u * power_of_ten (- p)) in *. set (d := units * power_of_ten p) in *.
  assert (0 < d) as Hd by (apply N.mul_pos_pos; auto using ten_pos, units_pos).
  assert (n = d * (n / d) + n mod d) as En by (apply N.div_mod; lia). assert (n mod d < d) as Hm by (apply N.mod_lt; lia).
  assert (forall c, (c * d - n) + (n - c * d) <= d - ((c * d - n) + (n - c * d)) -> round_decimal c p = u) as Hc.
  { intros c Hc. unfold round_decimal. apply round_close; auto using ten_pos. unfold distance. fold n.
    replace (c * power_of_ten p * units) with (c * d) by (unfold d; ring). clear - Hc Hs.
    change (2 ^ 53) with 9007199254740992 in *. change (2 ^ 54) with 18014398509481984 in *.
    generalize dependent (c * d). clearbody n d. intros. lia. }
  destruct (N.le_gt_cases (2 * (n mod d)) d) as [Hl|Hg].
  - exists (n / d). apply Hc. rewrite (N.mul_comm _ d). clear - En Hm Hl. generalize dependent (d * (n / d)). generalize dependent (n mod d).
    clearbody n d. intros. lia.
  - exists (n / d + 1). apply Hc. rewrite N.mul_add_distr_r, N.mul_1_l, (N.mul_comm _ d). clear - En Hm Hg. generalize dependent (d * (n / d)).
    generalize dependent (n mod d). clearbody n d. intros. lia.
Qed.
Lemma shortest_seventeen u : binary53 u -> 0 < u -> u < beyond -> fst (shortest u) < 10 ^ 17.
Proof.
  intros Hu Hp Hb. destruct (N.lt_ge_cases (fst (shortest u)) (10 ^ 17)) as [|Hge]; auto. exfalso.
  pose proof (shortest_near u (N.to_nat 1384) 309) as Hn. fold (shortest u) in Hn.
  pose proof (shortest_max u Hu Hp Hb) as Hmax. destruct (shortest u) as [c p]. cbn [fst snd] in *.
  destruct (nearest_multiple u (p + 1) Hu) as [c' Hc']; [|apply (Hmax c' (p + 1)%Z); [lia|exact Hc']].
  pose proof (ten_shift p 1 ltac:(lia)) as E. change (power_of_ten 1) with 10 in E.
  pose proof (ten_pos p) as P1. pose proof (ten_pos (- p)) as P2. pose proof (ten_pos (p + 1)) as P3. pose proof (ten_pos (- (p + 1))) as P4.
  apply (N.mul_lt_mono_pos_r (power_of_ten (- p))); [exact P2|].
  replace (2 ^ 53 * (units * power_of_ten (p + 1)) * power_of_ten (- p)) with (2 ^ 53 * units * (power_of_ten (p + 1) * power_of_ten (- p))) by ring.
  rewrite E.
  assert ((10 ^ 17 - 1) * (units * power_of_ten p) <= u * power_of_ten (- p)) as Hlow.
  { apply (N.mul_le_mono_r _ _ (units * power_of_ten p)) in Hge. rewrite N.mul_sub_distr_r, N.mul_1_l. lia. }
  apply N.lt_le_trans with (m := (10 ^ 17 - 1) * (units * power_of_ten p) * power_of_ten (- (p + 1))).
  - replace (2 ^ 53 * units * (power_of_ten p * power_of_ten (- (p + 1)) * 10)) with (2 ^ 53 * 10 * (units * power_of_ten p * power_of_ten (- (p + 1)))) by ring.
    rewrite <- (N.mul_assoc (10 ^ 17 - 1)). apply N.mul_lt_mono_pos_r; [|reflexivity]. apply N.mul_pos_pos; [apply N.mul_pos_pos; [apply units_pos|]|]; auto.
  - apply (N.mul_le_mono_r _ _ (power_of_ten (- (p + 1)))) in Hlow. eapply N.le_trans; [exact Hlow|]. apply N.eq_le_incl. ring.
Qed.

(** ** The closest decimal *)
Definition gap (x y : N) : N := (x - y) + (y - x).
Lemma shorten_closest u p c : binary53 u -> 0 < u -> shorten u p = Some c -> forall c', round_decimal c' p = u ->
  gap (c * (units * power_of_ten p)) (u * power_of_ten (- p)) <= gap (c' * (units * power_of_ten p)) (u * power_of_ten (- p)).
Proof.
  intros Hu Hp. unfold shorten. rewrite scale_units. set (n := u * power_of_ten (- p)). set (d := units * power_of_ten p).
  assert (0 < d) as Hd by (apply N.mul_pos_pos; auto using ten_pos, units_pos).
  assert (n = d * (n / d) + n mod d) as En by (apply N.div_mod; lia). assert (n mod d < d) as Hm by (apply N.mod_lt; lia).
  destruct (_ <? _); [discriminate|]. set (lo := n / d) in *. set (r := n mod d) in *. intros E c' Hc'.
  assert (forall x, x <= lo -> gap (lo * d) n <= gap (x * d) n) as Hlo.
  { intros x Hx. apply (N.mul_le_mono_r _ _ d) in Hx. unfold gap. clear - Hx En. rewrite (N.mul_comm lo d) in *.
    generalize dependent (x * d). generalize dependent (d * lo). clearbody n r. intros. lia. }
  assert (forall x, lo + 1 <= x -> gap ((lo + 1) * d) n <= gap (x * d) n) as Hhi.
  { intros x Hx. apply (N.mul_le_mono_r _ _ d) in Hx. unfold gap. rewrite N.mul_add_distr_r, N.mul_1_l in *. clear - Hx En Hm.
    rewrite (N.mul_comm lo d) in *. generalize dependent (x * d). generalize dependent (d * lo). clearbody n r. intros. lia. }
  assert (gap (lo * d) n = r) as Gl.
  { unfold gap. rewrite (N.mul_comm lo d). clear - En. generalize dependent (d * lo). clearbody n r. intros. lia. }
  assert (gap ((lo + 1) * d) n = d - r) as Gh.
  { unfold gap. rewrite N.mul_add_distr_r, N.mul_1_l, (N.mul_comm lo d). clear - En Hm. generalize dependent (d * lo). clearbody n r. intros. lia. }
  assert (round_decimal lo p <= u) as Rl.
  { apply below_le; auto. fold n d. rewrite (N.mul_comm lo d). rewrite En. apply N.le_add_r. }
  assert (u <= round_decimal (lo + 1) p) as Rh.
  { apply above_ge; auto. fold n d. rewrite N.mul_add_distr_r, N.mul_1_l, (N.mul_comm lo d). rewrite En. apply N.add_le_mono_l. apply N.lt_le_incl, Hm. }
  assert (forall x y : N, Some x = Some y -> x = y) as Hinj by (intros x y Exy; injection Exy; auto).
  clear Hm Hd. clearbody r lo. clear En. clearbody n d.
  destruct (N.eqb_spec (round_decimal lo p) u) as [E1|E1], (N.eqb_spec (round_decimal (lo + 1) p) u) as [E2|E2]; try discriminate; apply Hinj in E; subst c.
  - destruct (N.le_gt_cases c' lo) as [Hc|Hc].
    + specialize (Hlo c' Hc). rewrite Gl in Hlo. destruct (N.compare_spec (2 * r) d); [destruct (N.odd lo)| |]; rewrite ?Gh, ?Gl; lia.
    + specialize (Hhi c' ltac:(lia)). rewrite Gh in Hhi. destruct (N.compare_spec (2 * r) d); [destruct (N.odd lo)| |]; rewrite ?Gh, ?Gl; lia.
  - apply Hlo. destruct (N.le_gt_cases c' lo) as [|Hc]; auto. exfalso. apply E2.
    pose proof (round_decimal_mono (lo + 1) c' p ltac:(lia)). lia.
  - apply Hhi. destruct (N.le_gt_cases c' lo) as [Hc|]; [exfalso|lia]. apply E1.
    pose proof (round_decimal_mono c' lo p Hc). lia.
Qed.
Lemma shortest_closest u : binary53 u -> 0 < u -> forall fuel q, let '(c, p) := shortest_from fuel u q in
  forall c' a a' b, 0 < b -> decimal_is c p a b -> decimal_is c' p a' b -> round_decimal c' p = u -> distance a b u <= distance a' b u.
Proof.
  intros Hu Hp fuel q.
  assert (let '(c, p) := shortest_from fuel u q in forall c', round_decimal c' p = u ->
    gap (c * (units * power_of_ten p)) (u * power_of_ten (- p)) <= gap (c' * (units * power_of_ten p)) (u * power_of_ten (- p))) as Hg.
  { revert q. induction fuel as [|f IH]; intros q; cbn [shortest_from].
    - intros c' _. change (power_of_ten (-1074)) with 1. change (power_of_ten (- -1074)) with (10 ^ 1074). rewrite five_ten.
      replace (u * 5 ^ 1074 * (units * 1)) with (u * (5 ^ 1074 * units)) by ring. unfold gap at 1. rewrite N.sub_diag. apply N.le_0_l.
    - destruct (shorten u q) as [c|] eqn:E; [apply shorten_closest; auto|apply IH]. }
  destruct (shortest_from fuel u q) as [c p]. intros c' a a' b Hb Ha Ha' Hr. specialize (Hg c' Hr).
  apply decimal_tens in Ha, Ha'. pose proof (ten_pos (- p)) as P.
  assert (forall x y, x * power_of_ten p * b = y * power_of_ten (- p) ->
    distance y b u * power_of_ten (- p) = gap (x * (units * power_of_ten p)) (u * power_of_ten (- p)) * b) as Hs.
  { intros x y E. unfold distance, gap. rewrite !N.mul_add_distr_r, !N.mul_sub_distr_r.
    replace (y * units * power_of_ten (- p)) with (y * power_of_ten (- p) * units) by ring. rewrite <- E.
    f_equal; f_equal; ring. }
  apply (N.mul_le_mono_pos_r _ _ (power_of_ten (- p)) P). rewrite (Hs _ _ Ha), (Hs _ _ Ha'). apply N.mul_le_mono_r. exact Hg.
Qed.

(** ** The layout *)
Lemma zeros_length n : String.length (zeros n) = n.
Proof. induction n; cbn; auto. Qed.
Lemma zeros_digits n : only_digits (zeros n).
Proof. induction n; cbn; auto. Qed.
Lemma value_app : forall s acc t, decimal_value_acc acc (s ++ t) = decimal_value_acc (decimal_value_acc acc s) t.
Proof. induction s as [|c s IH]; intros acc t; cbn; auto. Qed.
Lemma value_zeros : forall n acc, decimal_value_acc acc (zeros n) = (acc * 10 ^ Z.of_nat n)%Z.
Proof.
  induction n as [|n IH]; intros acc; cbn [zeros decimal_value_acc]; [rewrite Z.mul_1_r; reflexivity|].
  rewrite IH. change (Z.of_N (code "0") - 48)%Z with 0%Z. rewrite Nat2Z.inj_succ, Z.pow_succ_r by lia. ring.
Qed.
Lemma split_at : forall n s, (n <= String.length s)%nat -> substring 0 n s ++ substring n (String.length s - n) s = s
  /\ String.length (substring 0 n s) = n /\ String.length (substring n (String.length s - n) s) = (String.length s - n)%nat.
Proof.
  induction n as [|n IH]; intros s Hn.
  - rewrite Nat.sub_0_r. assert (substring 0 (String.length s) s = s) as E by (clear; induction s; cbn; congruence).
    rewrite E. split; [|split]; auto; destruct s; reflexivity.
  - destruct s as [|c s]; [cbn in Hn; lia|]. cbn [String.length] in *. destruct (IH s ltac:(lia)) as (E1 & E2 & E3).
    cbn [substring String.append String.length Nat.sub]. rewrite E1, E2, E3. auto.
Qed.
Lemma digits_split a b : only_digits (a ++ b) <-> only_digits a /\ only_digits b.
Proof. apply str_all_app. Qed.
Lemma show_length c : (0 < String.length (show_N c))%nat.
Proof. destruct (show_N_spec c) as (_ & Hn & _). destruct (show_N c); [congruence|cbn; lia]. Qed.
Lemma len_app a b : len (a ++ b) = (len a + len b)%Z.
Proof. unfold len. induction a; cbn [String.append String.length]; lia. Qed.
Lemma natural_app a b : natural a -> a <> "0" -> only_digits b -> natural (a ++ b).
Proof.
  intros [[Ha Hn] Hz] Hne Hb. split; [split|].
  - apply str_all_app. auto.
  - destruct a; [congruence|discriminate].
  - right. destruct Hz as [->|Hz]; [congruence|]. destruct a; [congruence|exact Hz].
Qed.
Lemma natural_prefix a b : natural (a ++ b) -> a <> "" -> b <> "" -> natural a.
Proof.
  intros [[Ha Hn] Hz] Hna Hnb. apply str_all_app in Ha as [Ha _]. split; [split; auto|]. right.
  destruct a as [|c a]; [congruence|]. destruct Hz as [E|Hz]; [|exact Hz].
  cbn in E. injection E as _ E. destruct a; [cbn in E; congruence|discriminate].
Qed.
Lemma show_exponent z : exponent ("e" ++ show_Z z).
Proof.
  destruct (show_Z_text z) as [s [Hs _]|s [Hs _]].
  - exists "e", "", s. cbn. auto.
  - exists "e", "-", s. cbn. auto 10.
Qed.
(** The text is a number with a fraction or an exponent and is read as [c * 10^p]. *)
Lemma layout_reads c p : 0 < c -> real_literal (layout c p)
  /\ exists c' p', reads (layout c p) c' p' /\ forall a b, decimal_is c' p' a b <-> decimal_is c p a b.
Proof.
  intros Hc. destruct (show_N_spec c) as (Hd & Hn & Hv). pose proof (show_length c) as Hl. pose proof (show_N_natural c) as Hnat.
  assert (show_N c <> "0") as Hnz by (intros E; rewrite E in Hv; cbn in Hv; lia).
  unfold layout. set (ds := show_N c) in *. set (L := String.length ds) in *.
  assert (forall k, (k <= L)%nat -> (0 < k)%nat -> exists i f, substring 0 k ds = i /\ substring k (L - k) ds = f /\ i ++ f = ds
    /\ SpecJson.digits i /\ only_digits f /\ len f = (Z.of_nat L - Z.of_nat k)%Z /\ ((k < L)%nat -> f <> "" /\ natural i)) as Hsplit.
  { intros k Hk H0. exists (substring 0 k ds), (substring k (L - k) ds). destruct (split_at k ds Hk) as (E1 & E2 & E3). fold L in E1, E3.
    assert (only_digits (substring 0 k ds) /\ only_digits (substring k (L - k) ds)) as [Hi Hf].
    { rewrite <- E1 in Hd. apply str_all_app in Hd. exact Hd. }
    assert (substring 0 k ds <> "") as Hne by (intros E; rewrite E in E2; change (String.length "") with 0%nat in E2; lia).
    split; [auto|split; [auto|split; [auto|split; [split; auto|split; [auto|split]]]]].
    - unfold len. rewrite E3. lia.
    - intros Hlt. assert (substring k (L - k) ds <> "") as Hne' by (intros E; rewrite E in E3; change (String.length "") with 0%nat in E3; lia). split; auto.
      apply (natural_prefix _ (substring k (L - k) ds)); auto. rewrite E1. exact Hnat. }
  destruct ((0 <=? p) && (Z.of_nat L + p <=? 16))%Z eqn:C1.
  { apply andb_prop in C1 as [C1 _]. apply Z.leb_le in C1. pose proof (zeros_digits (Z.to_nat p)) as Hzs.
    assert (natural (ds ++ zeros (Z.to_nat p))) as Hni by (apply natural_app; auto). split.
    - exists (ds ++ zeros (Z.to_nat p)), (decimal_value (ds ++ zeros (Z.to_nat p))), ".0", "". split; [constructor; auto|]. split.
      + rewrite app_assoc_s. reflexivity.
      + left. split; [|auto]. exists "0". split; [split; cbn; auto; discriminate|reflexivity].
    - exists (c * power_of_ten (p + 1)), (-1)%Z. split.
      + replace (ds ++ zeros (Z.to_nat p) ++ ".0") with ((ds ++ zeros (Z.to_nat p)) ++ "." ++ "0") by (rewrite app_assoc_s; reflexivity).
        change (-1)%Z with (- len "0")%Z. apply rd_dot; [apply Hni|cbn; auto|].
        unfold decimal_value. rewrite !value_app, value_zeros. fold (decimal_value ds). rewrite Hv.
        cbn [decimal_value_acc]. change (Z.of_N (code "0") - 48)%Z with 0%Z. unfold power_of_ten.
        rewrite N2Z.inj_mul, N2Z.inj_pow, Z2N.id, Z2Nat.id by lia. rewrite Z.pow_add_r by lia. change (Z.of_N 10) with 10%Z. ring.
      + intros a b. rewrite <- decimal_shift by lia. replace (-1 + (p + 1))%Z with p by lia. reflexivity. }
  assert (forall t, reads t c p -> exists c' p', reads t c' p' /\ forall a b, decimal_is c' p' a b <-> decimal_is c p a b) as Hsame.
  { intros t Ht. exists c, p. split; [exact Ht|]. reflexivity. }
  destruct ((0 <? Z.of_nat L + p) && (Z.of_nat L + p <=? 16))%Z eqn:C2.
  { apply andb_prop in C2 as [C2 C2']. apply Z.ltb_lt in C2. rewrite C2', andb_true_r in C1. apply Z.leb_gt in C1.
    destruct (Hsplit (Z.to_nat (Z.of_nat L + p)) ltac:(lia) ltac:(lia)) as (i & f & -> & -> & E & Hi & Hf & Hlf & Hne). destruct (Hne ltac:(lia)) as [Hfn Hin].
    split.
    - exists i, (decimal_value i), ("." ++ f), "". split; [constructor; auto|]. split; [rewrite app_nil_r_s; reflexivity|].
      left. split; [|auto]. exists f. split; [split; auto|reflexivity].
    - apply Hsame. replace p with (- len f)%Z by lia. apply rd_dot; auto. rewrite E. exact Hv. }
  destruct ((-5 <? Z.of_nat L + p) && (Z.of_nat L + p <=? 0))%Z eqn:C3.
  { apply andb_prop in C3 as [_ C3]. apply Z.leb_le in C3. pose proof (zeros_digits (Z.to_nat (- (Z.of_nat L + p)))) as Hzs.
    assert (only_digits (zeros (Z.to_nat (- (Z.of_nat L + p))) ++ ds)) as Hf by (apply str_all_app; auto).
    split.
    - exists "0", 0%Z, ("." ++ zeros (Z.to_nat (- (Z.of_nat L + p))) ++ ds), "". split; [exact (in_natural "0" (show_N_natural 0))|].
      split; [rewrite app_nil_r_s; reflexivity|]. left. split; [|auto]. eexists. split; [split; [exact Hf|]|reflexivity].
      destruct (zeros _); [exact Hn|discriminate].
    - apply Hsame. replace p with (- len (zeros (Z.to_nat (- (Z.of_nat L + p))) ++ ds))%Z at 2.
      + change ("0." ++ zeros (Z.to_nat (- (Z.of_nat L + p))) ++ ds) with ("0" ++ "." ++ (zeros (Z.to_nat (- (Z.of_nat L + p))) ++ ds)).
        apply rd_dot; [split; cbn; auto; discriminate|exact Hf|]. unfold decimal_value. rewrite !value_app, value_zeros. exact Hv.
      + rewrite len_app. unfold len. rewrite zeros_length. fold L. lia. }
  destruct (Nat.eqb L 1) eqn:C4.
  { apply Nat.eqb_eq in C4. split.
    - exists ds, (decimal_value ds), "", ("e" ++ show_Z (Z.of_nat L + p - 1)). split; [constructor; exact Hnat|]. split; [reflexivity|].
      right. split; auto using show_exponent.
    - apply Hsame. replace p with (Z.of_nat L + p - 1)%Z at 2 by lia. apply rd_exponent; [split; auto|apply show_Z_text|exact Hv]. }
  apply Nat.eqb_neq in C4. destruct (Hsplit 1%nat ltac:(lia) ltac:(lia)) as (i & f & -> & -> & E & Hi & Hf & Hlf & Hne).
  destruct (Hne ltac:(lia)) as [Hfn Hin]. split.
  - exists i, (decimal_value i), ("." ++ f), ("e" ++ show_Z (Z.of_nat L + p - 1)). split; [constructor; auto|]. split; [reflexivity|].
    left. split; [exists f; split; [split; auto|reflexivity]|right; apply show_exponent].
  - apply Hsame. replace p with ((Z.of_nat L + p - 1) - len f)%Z at 2 by lia. apply rd_dot_exponent; [auto|split; auto|apply show_Z_text|].
    rewrite E. exact Hv.
Qed.

(** ** Exponents *)
Lemma value_bounds : forall s acc, only_digits s -> (0 <= acc)%Z ->
  (acc * 10 ^ len s <= decimal_value_acc acc s < (acc + 1) * 10 ^ len s)%Z.
Proof.
  induction s as [|c s IH]; intros acc Hs Ha.
  - cbn. lia.
  - destruct Hs as [Hc Hs]. cbn [decimal_value_acc]. unfold is_digit, in_range in Hc. apply andb_prop in Hc as [H1 H2].
    apply N.leb_le in H1, H2. destruct (IH (acc * 10 + (Z.of_N (code c) - 48))%Z Hs ltac:(lia)) as [L1 L2].
    replace (len (String c s)) with (Z.succ (len s)) by (unfold len; cbn [String.length]; lia).
    rewrite Z.pow_succ_r by (unfold len; lia). assert (0 < 10 ^ len s)%Z by (apply Z.pow_pos_nonneg; unfold len; lia). nia.
Qed.
Lemma show_bounds c : 0 < c -> 10 ^ N.of_nat (String.length (show_N c) - 1) <= c /\ c < 10 ^ N.of_nat (String.length (show_N c)).
Proof.
  intros Hc. destruct (show_N_natural c) as [[Hd Hn] Hz]. destruct (show_N_spec c) as (_ & _ & Hv).
  destruct Hz as [E|Hz]; [rewrite E in Hv; cbn in Hv; lia|].
  pose proof (value_bounds (show_N c) 0 Hd ltac:(lia)) as [_ Hu]. fold (decimal_value (show_N c)) in Hu. rewrite Hv in Hu.
  destruct (show_N c) as [|x s]; [congruence|]. destruct Hd as [Hx Hs]. cbn in Hz.
  split.
  - unfold decimal_value in Hv. cbn [decimal_value_acc] in Hv.
    assert (1 <= 0 * 10 + (Z.of_N (code x) - 48))%Z as H1.
    { unfold is_digit, in_range in Hx. apply andb_prop in Hx as [H1 H2]. apply N.leb_le in H1, H2.
      destruct (N.eq_dec (code x) 48) as [E|]; [|lia]. exfalso. apply Hz. rewrite <- (ascii_N_embedding x). unfold code in E. rewrite E. reflexivity. }
    pose proof (value_bounds s (0 * 10 + (Z.of_N (code x) - 48))%Z Hs ltac:(lia)) as [Hl _]. rewrite Hv in Hl. cbn [String.length]. rewrite Nat.sub_succ, Nat.sub_0_r.
    apply N2Z.inj_le. rewrite N2Z.inj_pow, nat_N_Z. fold (len s). change (Z.of_N 10) with 10%Z.
    assert (0 < 10 ^ len s)%Z by (apply Z.pow_pos_nonneg; unfold len; lia). nia.
  - apply N2Z.inj_lt. rewrite N2Z.inj_pow, nat_N_Z. change (Z.of_N 10) with 10%Z. unfold len in Hu. lia.
Qed.
Lemma digits_no_e s : only_digits s -> ~ str_in "e" s.
Proof. intros Hs Hi. eapply str_all_in in Hi; eauto. discriminate. Qed.
Lemma layout_exponent c p : 0 < c -> let kk := (len (show_N c) + p)%Z in str_in "e" (layout c p) <-> (16 < kk \/ kk <= -5)%Z.
Proof.
  intros Hc kk. destruct (show_N_spec c) as (Hd & Hn & _). pose proof (show_length c) as Hl. unfold layout. fold (len (show_N c)). fold kk.
  assert (forall a b, str_in "e" (a ++ b) <-> str_in "e" a \/ str_in "e" b) as Happ by (intros; apply str_in_app).
  pose proof (digits_no_e _ Hd) as Nd. pose proof (fun n => digits_no_e _ (zeros_digits n)) as Nz.
  assert (forall n, (n <= String.length (show_N c))%nat -> ~ str_in "e" (substring 0 n (show_N c)) /\ ~ str_in "e" (substring n (String.length (show_N c) - n) (show_N c))) as Ns.
  { intros n Hle. destruct (split_at n (show_N c) Hle) as (E & _). rewrite <- E in Nd at 1. rewrite Happ in Nd. tauto. }
  destruct ((0 <=? p) && (kk <=? 16))%Z eqn:C1.
  { apply andb_prop in C1 as [C1 C2]. apply Z.leb_le in C1, C2. rewrite !Happ. specialize (Nz (Z.to_nat p)). cbn [str_in].
    unfold kk, len in *. split; [intros [|[|H]]; [tauto|tauto|cbn in H; intuition discriminate]|lia]. }
  destruct ((0 <? kk) && (kk <=? 16))%Z eqn:C2.
  { apply andb_prop in C2 as [C2 C3]. rewrite C3, andb_true_r in C1. apply Z.ltb_lt in C2. apply Z.leb_le in C3. apply Z.leb_gt in C1.
    destruct (Ns (Z.to_nat kk)) as [N1 N2]; [unfold kk, len; lia|]. rewrite !Happ. split; [intros [|[H|]]; [tauto|cbn in H; intuition discriminate|tauto]|lia]. }
  destruct ((-5 <? kk) && (kk <=? 0))%Z eqn:C3.
  { apply andb_prop in C3 as [C3 C4]. apply Z.ltb_lt in C3. apply Z.leb_le in C4. rewrite !Happ.
    split; [intros [H|[H|]]; [cbn in H; intuition discriminate|exfalso; eapply Nz; eauto|tauto]|lia]. }
  assert (16 < kk \/ kk <= -5)%Z as Hk.
  { apply andb_false_iff in C2, C3. rewrite !Z.ltb_ge, !Z.leb_gt in C2, C3. lia. }
  split; [intros _; exact Hk|intros _]. destruct (Nat.eqb _ 1); rewrite !Happ; cbn; tauto.
Qed.
Lemma exponent_range c p a b : 0 < c -> 0 < b -> decimal_is c p a b -> let kk := (len (show_N c) + p)%Z in
  ((16 < kk)%Z <-> b * 10 ^ 16 <= a) /\ ((kk <= -5)%Z <-> a * 10 ^ 5 < b).
Proof.
  intros Hc Hb Hd kk. destruct (show_bounds c Hc) as [B1 B2]. pose proof (show_length c) as Hl. apply decimal_tens in Hd.
  pose proof (ten_pos (- p)) as P. unfold kk, len. set (L := String.length (show_N c)) in *.
  assert (forall x y, 10 ^ x <= 10 ^ y <-> x <= y) as Hpow by (intros; symmetry; apply N.pow_le_mono_r_iff; reflexivity).
  assert (10 ^ (N.of_nat (L - 1) + Z.to_N p) <= c * power_of_ten p) as U1 by (rewrite N.pow_add_r; apply N.mul_le_mono_r; exact B1).
  assert (c * power_of_ten p < 10 ^ (N.of_nat L + Z.to_N p)) as U2 by (rewrite N.pow_add_r; apply N.mul_lt_mono_pos_r; [apply ten_pos|exact B2]).
  split.
  - rewrite (N.mul_le_mono_pos_r _ _ (power_of_ten (- p)) P), <- Hd.
    replace (b * 10 ^ 16 * power_of_ten (- p)) with (10 ^ (16 + Z.to_N (- p)) * b) by (rewrite N.pow_add_r; unfold power_of_ten; ring).
    rewrite <- (N.mul_le_mono_pos_r _ _ b Hb). split.
    + intros Hk. eapply N.le_trans; [|exact U1]. apply Hpow. lia.
    + intros Hle. assert (10 ^ (16 + Z.to_N (- p)) < 10 ^ (N.of_nat L + Z.to_N p)) as Hlt by (eapply N.le_lt_trans; eauto).
      apply N.lt_nge in Hlt. rewrite Hpow in Hlt. lia.
  - rewrite (N.mul_lt_mono_pos_r (power_of_ten (- p)) _ _ P).
    replace (a * 10 ^ 5 * power_of_ten (- p)) with (c * power_of_ten p * 10 ^ 5 * b) by (rewrite <- (N.mul_assoc a), (N.mul_comm (10 ^ 5)), N.mul_assoc, <- Hd; ring).
    rewrite (N.mul_comm b), <- (N.mul_lt_mono_pos_r b _ _ Hb). split.
    + intros Hk. apply N.lt_le_trans with (m := 10 ^ (N.of_nat L + Z.to_N p) * 10 ^ 5); [apply N.mul_lt_mono_pos_r; [reflexivity|exact U2]|].
      rewrite <- N.pow_add_r. apply Hpow. lia.
    + intros Hlt. assert (10 ^ (N.of_nat (L - 1) + Z.to_N p) * 10 ^ 5 < 10 ^ Z.to_N (- p)) as Hlt'.
      { eapply N.le_lt_trans; [|exact Hlt]. apply N.mul_le_mono_r. exact U1. }
      rewrite <- N.pow_add_r in Hlt'. apply N.lt_nge in Hlt'. rewrite Hpow in Hlt'. lia.
Qed.
