(** The shortest decimal: maximality, fifteen digits, infinite values (C81). *)
From Coq Require Import String Ascii NArith ZArith Bool List Lia.
From Verif Require Import Base StrFacts SpecJson Json Real64 SpecReal RealProofs.
Open Scope N_scope.

Lemma beyond_units : beyond = 2 ^ 1024 * units.
Proof. unfold beyond, units. rewrite <- N.pow_add_r. reflexivity. Qed.
Lemma beyond_binary : binary53 beyond.
Proof. exists 1, 2098. split; reflexivity. Qed.
Lemma ten309 : 2 ^ 1024 <= 10 ^ 309.
Proof. apply N.leb_le. vm_compute. reflexivity. Qed.
Lemma round_huge c p : (309 <= p)%Z -> 0 < c -> beyond <= round_decimal c p.
Proof.
  intros Hp Hc. rewrite <- (round_exact beyond beyond_binary) at 1. unfold round_decimal. apply round_mono; [apply units_pos|apply ten_pos|].
  unfold power_of_ten. replace (Z.to_N (- p)) with 0 by lia. rewrite N.pow_0_r, N.mul_1_r, beyond_units.
  apply N.mul_le_mono_r. eapply N.le_trans; [apply ten309|]. replace (Z.to_N p) with (309 + Z.to_N (p - 309)) by lia.
  rewrite N.pow_add_r. assert (0 < 10 ^ Z.to_N (p - 309)) by (apply N.neq_0_lt_0, N.pow_nonzero; discriminate).
  generalize dependent (10 ^ Z.to_N (p - 309)). generalize (10 ^ 309). intros x y Hy.
  replace (c * (x * y)) with (x * (c * y)) by ring. rewrite <- (N.mul_1_r x) at 1. apply N.mul_le_mono_l. nia.
Qed.
Lemma shortest_ok u : binary53 u -> round_decimal (fst (shortest u)) (snd (shortest u)) = u.
Proof. intros Hu. apply shortest_from_ok. exact Hu. Qed.
Lemma shortest_low u : forall fuel p, (-1074 <= p)%Z -> (-1074 = p - Z.of_nat fuel + 1)%Z -> (-1074 <= snd (shortest_from fuel u p))%Z.
Proof.
  induction fuel as [|f IH]; intros p H1 H2; cbn [shortest_from snd]; [lia|].
  destruct (shorten u p); cbn [snd]; [lia|]. destruct (Z.eq_dec p (-1074)) as [->|].
  - replace f with O by lia. cbn. lia.
  - apply IH; lia.
Qed.
Lemma shortest_max u : binary53 u -> 0 < u -> u < beyond -> forall c' p', (snd (shortest u) < p')%Z -> round_decimal c' p' <> u.
Proof.
  intros Hu Hp Hb c' p' Hlt E. destruct (Z.le_gt_cases p' 309) as [Hle|Hgt].
  - revert E. unfold shortest in *. apply (shortest_from_max u Hu Hp (N.to_nat 1384) 309%Z); auto.
    assert (-1074 <= snd (shortest_from (N.to_nat 1384) u 309))%Z by (apply shortest_low; lia). lia.
  - destruct (N.eq_dec c' 0) as [->|Hc]; [rewrite round_zero in E; lia|]. pose proof (round_huge c' p' ltac:(lia) ltac:(lia)). lia.
Qed.

(** ** Relative error *)
Lemma round_error a b : 0 < b -> 2 ^ 52 <= round64 a b -> 2 ^ 53 * distance a b (round64 a b) <= round64 a b * b.
Proof.
  intros Hb Hn. destruct (round_cases a b Hb) as (s & m & r & Ex & Hr & Hm & Hs & Hc).
  assert (2 ^ 52 * 2 ^ s <= round64 a b) as Hbig.
  { destruct Hs as [->|Hs]; [rewrite N.pow_0_r, N.mul_1_r; exact Hn|].
    destruct Hc as [[-> _]|[-> _]]; apply N.mul_le_mono_r; lia. }
  assert (2 * distance a b (round64 a b) <= b * 2 ^ s) as Hd.
  { unfold distance. rewrite Ex. destruct Hc as [[-> Hc]|[-> Hc]].
    - replace (m * 2 ^ s * b) with (b * 2 ^ s * m) by ring. generalize dependent (b * 2 ^ s). intros. 
      destruct Hc as [|[]]; generalize dependent (n * m); intros; lia.
    - replace ((m + 1) * 2 ^ s * b) with (b * 2 ^ s * m + b * 2 ^ s) by ring. generalize dependent (b * 2 ^ s). intros. 
      destruct Hc as [|[]]; generalize dependent (n * m); intros; lia. }
  apply N.le_trans with (m := 2 ^ 52 * 2 ^ s * b); [|apply N.mul_le_mono_r; exact Hbig].
  change (2 ^ 53) with (2 ^ 52 * 2). apply N.le_trans with (m := 2 ^ 52 * (b * 2 ^ s)).
  - rewrite <- N.mul_assoc. apply N.mul_le_mono_l. exact Hd.
  - apply N.eq_le_incl. ring.
Qed.
Lemma two_decimals M C q : M < 10 ^ 15 -> 2 ^ 52 <= round_decimal M q -> round_decimal C q = round_decimal M q -> C = M.
Proof.
  intros HM Hn E. pose proof (ten_pos q) as Hq. pose proof (ten_pos (- q)) as Hq'. pose proof units_pos as Hu.
  pose proof (round_error (M * power_of_ten q) (power_of_ten (- q)) Hq' Hn) as EM.
  pose proof (round_error (C * power_of_ten q) (power_of_ten (- q)) Hq' ltac:(fold (round_decimal C q); rewrite E; exact Hn)) as EC.
  fold (round_decimal M q) in EM. fold (round_decimal C q) in EC. rewrite E in EC.
  unfold distance in EM, EC.
  replace (M * power_of_ten q * units) with (M * (power_of_ten q * units)) in EM by ring.
  replace (C * power_of_ten q * units) with (C * (power_of_ten q * units)) in EC by ring.
  assert (0 < power_of_ten q * units) as HK by (apply N.mul_pos_pos; auto).
  remember (power_of_ten q * units) as K eqn:EK. remember (round_decimal M q * power_of_ten (- q)) as U eqn:EU. clear - HM EM EC HK.
  change (2 ^ 53) with 9007199254740992 in *. change (10 ^ 15) with 1000000000000000 in HM.
  assert (M * K <= 1000000000000000 * K) by (apply N.mul_le_mono_r; lia).
  destruct (N.lt_trichotomy C M) as [Hl|[|Hl]]; auto; exfalso.
  - assert (C * K + K <= M * K) by (apply N.le_trans with (m := (C + 1) * K); [apply N.eq_le_incl; ring|apply N.mul_le_mono_r; lia]).
    generalize dependent (M * K). generalize dependent (C * K). intros. lia.
  - assert (M * K + K <= C * K) by (apply N.le_trans with (m := (M + 1) * K); [apply N.eq_le_incl; ring|apply N.mul_le_mono_r; lia]).
    generalize dependent (M * K). generalize dependent (C * K). intros. lia.
Qed.
Lemma shortest_fifteen M q a b : M < 10 ^ 15 -> 2 ^ 52 <= round_decimal M q -> round_decimal M q < beyond ->
  decimal_is (fst (shortest (round_decimal M q))) (snd (shortest (round_decimal M q))) a b <-> decimal_is M q a b.
Proof.
  intros HM Hn Hb. set (u := round_decimal M q) in *.
  assert (binary53 u) as Hu by (apply round_binary, ten_pos).
  assert (0 < u) as Hpos by (eapply N.lt_le_trans; [|exact Hn]; reflexivity).
  destruct (Z.lt_ge_cases (snd (shortest u)) q) as [Hlt|Hge].
  - exfalso. apply (shortest_max u Hu Hpos Hb M q Hlt). reflexivity.
  - pose proof (shortest_ok u Hu) as Ho. remember (fst (shortest u)) as c. remember (snd (shortest u)) as p.
    replace p with (q + (p - q))%Z in * by lia. rewrite round_shift in Ho by lia. rewrite decimal_shift by lia.
    rewrite (two_decimals M (c * power_of_ten (p - q)) q); [reflexivity|exact HM|exact Hn|exact Ho].
Qed.

(** ** Infinite values *)
Definition last_finite : N := (2 ^ 53 - 1) * 2 ^ 2045.
Lemma threshold_round : round64 ((2 ^ 54 - 1) * 2 ^ 970) 1 = beyond.
Proof. vm_compute. reflexivity. Qed.
Lemma beyond_iff a b : 0 < b -> beyond <= round64 a b <-> b * ((2 ^ 54 - 1) * 2 ^ 970) <= a.
Proof.
  intros Hb. split; intros Hx.
  - destruct (N.le_gt_cases (b * ((2 ^ 54 - 1) * 2 ^ 970)) a) as [|Hlt]; auto. exfalso.
    destruct (round_nearest a b Hb) as [Hu Hn]. 
    assert (binary53 last_finite) as Hf by (exists (2 ^ 53 - 1), 2045; split; reflexivity).
    assert (last_finite < beyond) as Hfb by (apply N.ltb_lt; vm_compute; reflexivity).
    assert (distance a b (round64 a b) <= distance a b last_finite) as Hd by (destruct (Hn last_finite Hf) as [|[]]; lia).
    assert (last_finite + beyond = 2 * ((2 ^ 54 - 1) * 2 ^ 970 * units)) as Es by (apply N.eqb_eq; vm_compute; reflexivity).
    assert (a * units < b * ((2 ^ 54 - 1) * 2 ^ 970 * units)) as Hax.
    { rewrite N.mul_assoc. apply N.mul_lt_mono_pos_r; [apply units_pos|exact Hlt]. }
    assert (beyond * b <= round64 a b * b) as Hr by (apply N.mul_le_mono_r; exact Hx).
    assert (last_finite * b + beyond * b = 2 * (b * ((2 ^ 54 - 1) * 2 ^ 970 * units))) as Es' by (rewrite <- N.mul_add_distr_r, Es; ring).
    unfold distance in Hd. pose proof (proj1 (N.mul_lt_mono_pos_r b last_finite beyond Hb) Hfb) as Hfb'. clear Hfb.
    clear - Hd Hax Hr Es' Hfb'.
    generalize dependent (b * ((2 ^ 54 - 1) * 2 ^ 970 * units)). generalize dependent (last_finite * b). generalize dependent (beyond * b).
    generalize dependent (round64 a b * b). generalize dependent (a * units). intros. lia.
  - rewrite <- threshold_round. apply round_mono; [reflexivity|exact Hb|]. rewrite N.mul_1_r, N.mul_comm. exact Hx.
Qed.
