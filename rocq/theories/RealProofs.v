(** Proofs about Real64.v: rounding. *)
From Coq Require Import String Ascii NArith ZArith Bool List Lia.
From Verif Require Import Base StrFacts Json Real64 SpecJson SpecReal.
Open Scope N_scope.

Lemma pow2_pos s : 0 < 2 ^ s.
Proof. apply N.neq_0_lt_0, N.pow_nonzero. discriminate. Qed.
Lemma scale_pos : 0 < scale.
Proof. apply pow2_pos. Qed.
Lemma scale_units : scale = units.
Proof. reflexivity. Qed.

(** ** The cases of rounding *)
Lemma round_cases a b : 0 < b -> exists s m r,
  a * units = b * 2 ^ s * m + r /\ r < b * 2 ^ s /\ m < 2 ^ 53 /\ (s = 0 \/ 2 ^ 52 <= m)
  /\ (round64 a b = m * 2 ^ s /\ (2 * r < b * 2 ^ s \/ 2 * r = b * 2 ^ s /\ N.even m = true)
      \/ round64 a b = (m + 1) * 2 ^ s /\ (b * 2 ^ s < 2 * r \/ 2 * r = b * 2 ^ s /\ N.odd m = true)).
Proof.
  intros Hb. unfold round64. rewrite scale_units. set (x := a * units). set (s := N.size (x / b) - 53).
  exists s, (x / (b * 2 ^ s)), (x mod (b * 2 ^ s)). pose proof (pow2_pos s) as Hs.
  assert (b * 2 ^ s <> 0) as Hd by (apply N.neq_mul_0; split; lia).
  split; [apply N.div_mod; auto|]. split; [apply N.mod_lt; auto|].
  assert (x / (b * 2 ^ s) = x / b / 2 ^ s) as Eq by (rewrite N.div_div; auto; lia).
  split; [|split].
  - rewrite Eq. apply N.div_lt_upper_bound; [lia|]. rewrite <- N.pow_add_r.
    eapply N.lt_le_trans; [apply N.size_gt|]. apply N.pow_le_mono_r; [discriminate|]. subst s. lia.
  - destruct (N.eq_dec s 0) as [|Hn]; auto. right. rewrite Eq. apply N.div_le_lower_bound; [lia|]. rewrite <- N.pow_add_r.
    assert (x / b <> 0) as Hq. { intros E. apply Hn. subst s. rewrite E. reflexivity. }
    pose proof (N.size_log2 _ Hq) as Es. assert (0 < x / b) as Hp by (apply N.neq_0_lt_0; auto). apply N.log2_spec in Hp.
    eapply N.le_trans; [|apply Hp]. apply N.pow_le_mono_r; [discriminate|].
    assert (s = N.size (x / b) - 53) as Es' by reflexivity. clearbody s. clear -Es Es' Hn. generalize dependent (N.size (x / b)). intros z. lia.
  - destruct (N.compare_spec (2 * (x mod (b * 2 ^ s))) (b * 2 ^ s)) as [E|E|E].
    + destruct (N.odd (x / (b * 2 ^ s))) eqn:Eo.
      * right. auto.
      * left. split; auto. right. split; auto. rewrite <- N.negb_odd, Eo. reflexivity.
    + left. auto.
    + right. auto.
Qed.

Lemma pow53 s : 2 ^ 53 * 2 ^ s = 2 ^ 52 * 2 ^ (s + 1).
Proof. rewrite N.pow_add_r. change (2 ^ 53) with (2 ^ 52 * 2). rewrite N.pow_1_r. ring. Qed.
Lemma succ_binary m s : m < 2 ^ 53 -> binary53 ((m + 1) * 2 ^ s).
Proof.
  intros Hm. destruct (N.eq_dec (m + 1) (2 ^ 53)) as [E|E].
  - exists (2 ^ 52), (s + 1). split; [|reflexivity]. rewrite E. apply pow53.
  - exists (m + 1), s. split; auto. lia.
Qed.

(** Between two neighbouring multiples there is no number of 53 bits. *)
Lemma no_binary_between m s w : binary53 w -> s = 0 \/ 2 ^ 52 <= m -> w <= m * 2 ^ s \/ (m + 1) * 2 ^ s <= w.
Proof.
  intros (k & t & -> & Hk) Hs. destruct (N.le_gt_cases (k * 2 ^ t) (m * 2 ^ s)) as [|H1]; auto.
  destruct (N.le_gt_cases ((m + 1) * 2 ^ s) (k * 2 ^ t)) as [|H2]; auto. exfalso.
  destruct Hs as [->|Hm]; [change (2 ^ 0) with 1 in *; lia|].
  assert (s <= t) as Ht.
  { destruct (N.le_gt_cases s t) as [|Ht]; auto. exfalso.
    assert (2 ^ (t + 1) <= 2 ^ s) as Hp by (apply N.pow_le_mono_r; [discriminate|lia]).
    rewrite N.pow_add_r, N.pow_1_r in Hp. change (2 ^ 53) with (2 * 2 ^ 52) in Hk. generalize dependent (2 ^ 52). intros. nia. }
  replace (k * 2 ^ t) with (k * 2 ^ (t - s) * 2 ^ s) in * by (rewrite <- N.mul_assoc, <- N.pow_add_r; f_equal; f_equal; lia).
  apply N.mul_lt_mono_pos_r in H1; [|apply pow2_pos]. apply N.mul_lt_mono_pos_r in H2; [|apply pow2_pos]. lia.
Qed.

Section Round.
Variables a b : N.
Hypothesis Hb : 0 < b.

Lemma round_binary : binary53 (round64 a b).
Proof.
  destruct (round_cases a b Hb) as (s & m & r & _ & _ & Hm & _ & [[-> _]|[-> _]]); [exists m, s; auto|apply succ_binary; auto].
Qed.

Lemma round_nearest : nearest a b (round64 a b).
Proof.
  split; [apply round_binary|]. intros w Hw Hne.
  destruct (round_cases a b Hb) as (s & m & r & Ex & Hr & Hm & Hs & Hc).
  pose proof (no_binary_between m s w Hw Hs) as Hbt. unfold distance. rewrite Ex.
  assert (forall k, N.even k = true -> m <= k <= m + 1 -> last_bit_zero (k * 2 ^ s)) as Hl.
  { intros k Hk Hi. destruct (N.eq_dec k (2 ^ 53)) as [->|Hk'].
    - exists (2 ^ 52), (s + 1). split; [apply pow53|]. split; [reflexivity|]. split; [right; lia|reflexivity].
    - exists k, s. split; auto. split; [lia|]. split; auto. destruct Hs as [|Hs]; auto. right.
      eapply N.le_trans; [exact Hs|lia]. }
  set (B := b * 2 ^ s) in *. assert (m * 2 ^ s * b = m * B) as E0 by (unfold B; ring).
  assert ((m + 1) * 2 ^ s * b = m * B + B) as E1 by (unfold B; ring). rewrite (N.mul_comm B m) in Ex |- *.
  assert (w * b < m * B \/ w = m * 2 ^ s \/ w = (m + 1) * 2 ^ s \/ m * B + B < w * b) as Hw'.
  { rewrite <- E1, <- E0. destruct Hbt as [H1|H1]; apply N.lt_eq_cases in H1 as [H1|H1]; auto.
    - left. apply N.mul_lt_mono_pos_r; auto.
    - right; right; right. apply N.mul_lt_mono_pos_r; auto. }
  assert (0 < B) as HB by (apply N.mul_pos_pos; auto; apply pow2_pos).
  clearbody B. clear Ex Hbt Hm Hs.
  destruct Hc as [[E Hc]|[E Hc]]; rewrite E in *; clear E; rewrite ?E0, ?E1.
  - destruct Hw' as [H1|[H1|[->|H1]]]; [left; lia|congruence| |left; lia]. rewrite E1.
    destruct Hc as [Hc|[Hc He]]; [left; lia|]. right. split; [lia|]. apply Hl; auto; lia.
  - destruct Hw' as [H1|[->|[H1|H1]]]; [left; lia| |congruence|left; lia]. rewrite E0.
    destruct Hc as [Hc|[Hc He]]; [left; lia|]. right. split; [lia|]. apply Hl; [|lia].
    rewrite N.even_add. change (N.even 1) with false. rewrite <- N.negb_odd, He. reflexivity.
Qed.
End Round.

(** ** Rounding is a function of the number, and monotone *)
Lemma units_pos : 0 < units.
Proof. apply pow2_pos. Qed.
Lemma odd_even_times m k j : m + 1 = k * 2 ^ j -> N.even m = true -> N.even k = true -> False.
Proof.
  intros E Hm Hk. assert (N.even (m + 1) = true) as He by (rewrite E, N.even_mul, Hk; reflexivity).
  rewrite N.even_add, Hm in He. discriminate.
Qed.
Lemma even_neighbours m s k t : m * 2 ^ s < k * 2 ^ t -> N.even m = true -> N.even k = true ->
  m < 2 ^ 53 -> k < 2 ^ 53 -> s = 0 \/ 2 ^ 52 <= m -> (m + 1) * 2 ^ s = k * 2 ^ t -> False.
Proof.
  intros Hlt Hm Hk Lm Lk Hs E. destruct (N.le_gt_cases s t) as [Ht|Ht].
  - replace t with (s + (t - s)) in E by lia. rewrite N.pow_add_r in E.
    apply (odd_even_times m k (t - s)); auto. apply N.mul_cancel_r with (p := 2 ^ s); [apply N.neq_0_lt_0, pow2_pos|]. rewrite E. ring.
  - destruct Hs as [->|Hs]; [lia|]. replace s with (t + (s - t)) in E by lia. rewrite N.pow_add_r in E.
    assert ((m + 1) * 2 ^ (s - t) = k) as Ek. { apply N.mul_cancel_r with (p := 2 ^ t); [apply N.neq_0_lt_0, pow2_pos|]. rewrite <- E. ring. }
    assert (2 ^ 1 <= 2 ^ (s - t)) as Hp by (apply N.pow_le_mono_r; [discriminate|lia]). rewrite N.pow_1_r in Hp.
    change (2 ^ 53) with (2 * 2 ^ 52) in *. generalize dependent (2 ^ 52). generalize dependent (2 ^ (s - t)). intros. nia.
Qed.
Lemma nearest_lt a b u w : 0 < b -> nearest a b u -> nearest a b w -> u < w -> False.
Proof.
  intros Hb [Bu Nu] [Bw Nw] Hlt.
  destruct (Nu w Bw) as [H1|[H1 Lu]]; [lia| |]; (destruct (Nw u Bu) as [H2|[H2 Lw]]; [lia|lia|]); [lia|].
  destruct Lu as (m & s & Eu & Lm & Hs & Em), Lw as (k & t & Ew & Lk & Ht & Ek).
  apply (even_neighbours m s k t); auto; [congruence|]. clear Ht H1 H2. rewrite Ew in Bw.
  destruct (no_binary_between m s (k * 2 ^ t)) as [Hc|Hc]; auto; [rewrite <- Eu, <- Ew in Hc; lia|].
  apply N.lt_eq_cases in Hc as [Hc|]; auto. exfalso. rewrite <- Ew in Hc.
  pose proof (succ_binary m s Lm) as Bz. remember ((m + 1) * 2 ^ s) as z eqn:Ez.
  assert (u < z) as Hz. { rewrite Eu, Ez. apply N.mul_lt_mono_pos_r; [apply pow2_pos|lia]. }
  assert (distance a b u <= distance a b z) as D1. { destruct (Nu z Bz) as [|[]]; lia. }
  assert (distance a b w <= distance a b z) as D2. { destruct (Nw z Bz) as [|[]]; lia. }
  unfold distance in *. apply (N.mul_lt_mono_pos_r b) in Hc; auto. apply (N.mul_lt_mono_pos_r b) in Hz; auto.
  generalize dependent (a * units). intros. lia.
Qed.
Lemma nearest_unique a b u w : 0 < b -> nearest a b u -> nearest a b w -> u = w.
Proof.
  intros Hb H1 H2. destruct (N.lt_trichotomy u w) as [Hl|[|Hl]]; auto; exfalso.
  - apply (nearest_lt a b u w); auto.
  - apply (nearest_lt a b w u); auto.
Qed.
Lemma distance_scale a b u c : distance (a * c) (b * c) u = distance a b u * c.
Proof.
  unfold distance. replace (a * c * units) with (a * units * c) by ring. replace (u * (b * c)) with (u * b * c) by ring.
  rewrite N.mul_add_distr_r, !N.mul_sub_distr_r. reflexivity.
Qed.
Lemma nearest_scale a b u c : 0 < c -> nearest a b u -> nearest (a * c) (b * c) u.
Proof.
  intros Hc [Hu Hn]. split; auto. intros w Hw Hne. rewrite !distance_scale. destruct (Hn w Hw Hne) as [Hd|[Hd Hl]].
  - left. apply N.mul_lt_mono_pos_r; auto.
  - right. rewrite Hd. auto.
Qed.
Lemma round_scale a b c : 0 < b -> 0 < c -> round64 (a * c) (b * c) = round64 a b.
Proof.
  intros Hb Hc. apply (nearest_unique (a * c) (b * c)); [apply N.mul_pos_pos; auto| |].
  - apply round_nearest, N.mul_pos_pos; auto.
  - apply nearest_scale; auto. apply round_nearest; auto.
Qed.
Lemma round_same a b a' b' : 0 < b -> 0 < b' -> a * b' = a' * b -> round64 a b = round64 a' b'.
Proof.
  intros Hb Hb' E. rewrite <- (round_scale a b b'), <- (round_scale a' b' b) by auto. rewrite E. f_equal. ring.
Qed.
Lemma round_mono_same a a' b : 0 < b -> a <= a' -> round64 a b <= round64 a' b.
Proof.
  intros Hb Ha. destruct (N.le_gt_cases (round64 a b) (round64 a' b)) as [|Hlt]; auto. exfalso.
  destruct (N.eq_dec a a') as [->|Hne]; [lia|].
  destruct (round_nearest a b Hb) as [Bu Nu], (round_nearest a' b Hb) as [Bw Nw].
  remember (round64 a b) as u. remember (round64 a' b) as w.
  assert (distance a b u <= distance a b w) as D1. { destruct (Nu w Bw) as [|[]]; lia. }
  assert (distance a' b w <= distance a' b u) as D2. { destruct (Nw u Bu) as [|[]]; lia. }
  unfold distance in *. apply (N.mul_lt_mono_pos_r b) in Hlt; auto.
  assert (a * units < a' * units) as Hlt' by (apply N.mul_lt_mono_pos_r; [apply units_pos|lia]).
  clear -D1 D2 Hlt Hlt'. generalize dependent (a * units). generalize dependent (a' * units). intros. lia.
Qed.
Lemma round_mono a b a' b' : 0 < b -> 0 < b' -> a * b' <= a' * b -> round64 a b <= round64 a' b'.
Proof.
  intros Hb Hb' E. rewrite <- (round_scale a b b'), <- (round_scale a' b' b) by auto. rewrite (N.mul_comm b' b).
  apply round_mono_same; auto. apply N.mul_pos_pos; auto.
Qed.
Lemma round_exact u : binary53 u -> round64 u units = u.
Proof.
  intros Hu. destruct (round_nearest u units units_pos) as [_ Hn]. destruct (N.eq_dec (round64 u units) u) as [|Hne]; auto.
  assert (distance u units u = 0) as E0. { unfold distance. lia. }
  assert (distance u units (round64 u units) = 0) as E1. { destruct (Hn u Hu) as [H1|[H1 _]]; [congruence|lia|congruence]. }
  unfold distance in E1. apply N.mul_cancel_r with (p := units); [apply N.neq_0_lt_0, units_pos|]. lia.
Qed.

(** ** Decimals *)
Lemma ten_pos p : 0 < power_of_ten p.
Proof. apply N.neq_0_lt_0, N.pow_nonzero. discriminate. Qed.
Lemma decimal_tens c p a b : decimal_is c p a b <-> c * power_of_ten p * b = a * power_of_ten (- p).
Proof.
  unfold decimal_is, power_of_ten. destruct p as [|k|k]; cbn [Z.opp Z.to_N].
  - rewrite N.pow_0_r. lia.
  - rewrite N.pow_0_r. lia.
  - rewrite N.pow_0_r. lia.
Qed.
Lemma round_decimal_is c p a b : 0 < b -> decimal_is c p a b -> round64 a b = round_decimal c p.
Proof.
  intros Hb E. apply decimal_tens in E. unfold round_decimal. apply round_same; auto using ten_pos.
Qed.
Lemma decimal_self c p : decimal_is c p (c * power_of_ten p) (power_of_ten (- p)).
Proof. apply decimal_tens. reflexivity. Qed.
Lemma ten_shift p j : (0 <= j)%Z -> power_of_ten (p + j) * power_of_ten (- p) = power_of_ten p * power_of_ten (- (p + j)) * power_of_ten j.
Proof.
  intros Hj. unfold power_of_ten. rewrite <- !N.pow_add_r. f_equal. lia.
Qed.
Lemma decimal_shift c p j a b : (0 <= j)%Z -> decimal_is c (p + j) a b <-> decimal_is (c * power_of_ten j) p a b.
Proof.
  intros Hj. rewrite !decimal_tens. pose proof (ten_shift p j Hj) as E.
  pose proof (ten_pos p). pose proof (ten_pos (- p)). pose proof (ten_pos (p + j)). pose proof (ten_pos (- (p + j))). pose proof (ten_pos j).
  split; intros Hx.
  - apply N.mul_cancel_r with (p := power_of_ten (- (p + j))); [lia|].
    replace (c * power_of_ten j * power_of_ten p * b * power_of_ten (- (p + j)))
      with (c * (power_of_ten p * power_of_ten (- (p + j)) * power_of_ten j) * b) by ring.
    rewrite <- E. replace (c * (power_of_ten (p + j) * power_of_ten (- p)) * b) with (c * power_of_ten (p + j) * b * power_of_ten (- p)) by ring.
    rewrite Hx. ring.
  - apply N.mul_cancel_r with (p := power_of_ten (- p)); [lia|].
    replace (c * power_of_ten (p + j) * b * power_of_ten (- p)) with (c * (power_of_ten (p + j) * power_of_ten (- p)) * b) by ring.
    rewrite E. replace (c * (power_of_ten p * power_of_ten (- (p + j)) * power_of_ten j) * b)
      with (c * power_of_ten j * power_of_ten p * b * power_of_ten (- (p + j))) by ring. rewrite Hx. ring.
Qed.
Lemma round_shift c p j : (0 <= j)%Z -> round_decimal c (p + j) = round_decimal (c * power_of_ten j) p.
Proof.
  intros Hj. unfold round_decimal at 1. apply round_decimal_is; [apply ten_pos|]. apply decimal_shift; auto. apply decimal_self.
Qed.
Lemma round_decimal_mono c c' p : c <= c' -> round_decimal c p <= round_decimal c' p.
Proof. intros Hc. apply round_mono_same; [apply ten_pos|]. apply N.mul_le_mono_r; auto. Qed.
Lemma round_zero p : round_decimal 0 p = 0.
Proof.
  unfold round_decimal. rewrite N.mul_0_l. rewrite (round_same 0 _ 0 units (ten_pos _) units_pos) by reflexivity.
  apply round_exact. exists 0, 0. split; reflexivity.
Qed.
Lemma twice_binary u : binary53 u -> binary53 (2 * u).
Proof. intros (m & s & -> & Hm). exists m, (s + 1). split; auto. rewrite N.pow_add_r, N.pow_1_r. ring. Qed.

Section Shorten.
Variable u : N.
Hypothesis Hu : binary53 u.
Lemma below_le c p : c * (units * power_of_ten p) <= u * power_of_ten (- p) -> round_decimal c p <= u.
Proof.
  intros Hc. rewrite <- (round_exact u Hu). apply round_mono; auto using ten_pos, units_pos.
  eapply N.le_trans; [|exact Hc]. apply N.eq_le_incl. ring.
Qed.
Lemma above_ge c p : u * power_of_ten (- p) <= c * (units * power_of_ten p) -> u <= round_decimal c p.
Proof.
  intros Hc. rewrite <- (round_exact u Hu) at 1. apply round_mono; auto using ten_pos, units_pos.
  eapply N.le_trans; [exact Hc|]. apply N.eq_le_incl. ring.
Qed.
Lemma shorten_some p c : shorten u p = Some c -> round_decimal c p = u.
Proof.
  unfold shorten. destruct (_ <? _); [discriminate|].
  destruct (round_decimal _ p =? u) eqn:E1; destruct (round_decimal (_ + 1) p =? u) eqn:E2; try discriminate;
    apply N.eqb_eq in E1 || clear E1; apply N.eqb_eq in E2 || clear E2; intros E; injection E as <-; auto.
  destruct (_ ?= _); auto. destruct (N.odd _); auto.
Qed.
Lemma shorten_none p : 0 < u -> shorten u p = None -> forall c, round_decimal c p <> u.
Proof.
  intros Hpos. unfold shorten. rewrite scale_units.
  set (n := u * power_of_ten (- p)). set (d := units * power_of_ten p).
  assert (0 < d) as Hd by (apply N.mul_pos_pos; auto using ten_pos, units_pos).
  destruct (2 * n <? d) eqn:El.
  - intros _ c E. apply N.ltb_lt in El. destruct (N.eq_dec c 0) as [->|Hc]; [rewrite round_zero in E; lia|].
    assert (2 * u <= round_decimal c p) as Hge; [|lia].
    rewrite <- (round_exact (2 * u) (twice_binary u Hu)) at 1. apply round_mono; auto using ten_pos, units_pos.
    apply N.le_trans with (m := d); [unfold n in El; clear -El; lia|].
    replace (c * power_of_ten p * units) with (c * d) by (unfold d; ring). clear -Hc Hd. nia.
  - set (lo := n / d). destruct (round_decimal lo p =? u) eqn:E1; destruct (round_decimal (lo + 1) p =? u) eqn:E2; try discriminate.
    intros _ c E. apply N.eqb_neq in E1, E2. 
    assert (n = d * lo + n mod d) as En by (apply N.div_mod; lia). assert (n mod d < d) as Hm by (apply N.mod_lt; lia).
    destruct (N.le_gt_cases c lo) as [Hc|Hc].
    + apply E1. apply N.le_antisymm.
      * apply below_le. fold n d. rewrite (N.mul_comm lo d). rewrite En at 1. apply N.le_add_r.
      * rewrite <- E at 1. apply round_decimal_mono; auto.
    + apply E2. apply N.le_antisymm.
      * rewrite <- E at 1. apply round_decimal_mono. lia.
      * apply above_ge. fold n d. rewrite N.mul_add_distr_r, (N.mul_comm lo d), N.mul_1_l. rewrite En at 1. apply N.add_le_mono_l. apply N.lt_le_incl, Hm.
Qed.
Lemma five_ten : 10 ^ 1074 = 5 ^ 1074 * units.
Proof. unfold units. rewrite <- N.pow_mul_l. reflexivity. Qed.
Lemma shortest_from_ok : forall fuel p, round_decimal (fst (shortest_from fuel u p)) (snd (shortest_from fuel u p)) = u.
Proof.
  induction fuel as [|f IH]; intros p; cbn [shortest_from].
  - cbn [fst snd]. unfold round_decimal. rewrite <- (round_exact u Hu) at 2. apply round_same; [apply ten_pos|apply units_pos|].
    change (power_of_ten (-1074)) with 1. change (power_of_ten (- -1074)) with (10 ^ 1074). rewrite five_ten. ring.
  - destruct (shorten u p) as [c|] eqn:E; auto. cbn [fst snd]. apply shorten_some; auto.
Qed.
Lemma shortest_from_max (Hp : 0 < u) : forall fuel p, forall c' p',
  (snd (shortest_from fuel u p) < p')%Z -> (p' <= p)%Z -> (p - Z.of_nat fuel < p')%Z -> round_decimal c' p' <> u.
Proof.
  induction fuel as [|f IH]; intros p c' p'; cbn [shortest_from]; [lia|].
  destruct (shorten u p) as [c|] eqn:E; cbn [snd]; [lia|]. intros H1 H2 H3.
  destruct (Z.eq_dec p' p) as [->|Hne]; [apply shorten_none; auto|]. apply (IH (p - 1)%Z); auto; lia.
Qed.
End Shorten.
