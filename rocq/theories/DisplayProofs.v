(** How messages show real numbers (Double.v, for C64 and C84). *)
From Coq Require Import String Ascii NArith ZArith Bool List Lia.
From Verif Require Import Base StrFacts PrintText SpecIo SpecJson Json JsonProofs JsonText Real64 SpecReal RealProofs RealProofs2 RealProofs3 PropsReal.
Open Scope string_scope.
Open Scope N_scope.

(** The text, or the text and a dot, is a literal that is read as [c * 10^p]. *)
Lemma positional_reads c p : exists y, (y = positional c p \/ y = positional c p ++ ".") /\ written y
  /\ exists c' p', reads y c' p' /\ forall a b, decimal_is c' p' a b <-> decimal_is c p a b.
Proof.
  destruct (show_N_spec c) as (Hd & Hn & Hv). pose proof (show_length c) as Hl.
  unfold positional. set (ds := show_N c) in *. set (L := String.length ds) in *.
  destruct (Z.leb_spec 0 p) as [C1|C1].
  { pose proof (zeros_digits (Z.to_nat p)) as Hzs.
    assert (SpecJson.digits (ds ++ zeros (Z.to_nat p))) as Hi.
    { split; [apply str_all_app; auto|]. destruct ds; [congruence|discriminate]. }
    exists ((ds ++ zeros (Z.to_nat p)) ++ "."). split; auto. split.
    - exists (ds ++ zeros (Z.to_nat p)), "". split; auto. split; [exact I|reflexivity].
    - exists (c * power_of_ten p), 0%Z. split.
      + apply (rd_dot (ds ++ zeros (Z.to_nat p)) "" (c * power_of_ten p) Hi I).
        rewrite app_nil_r_s. unfold decimal_value. rewrite value_app, value_zeros. fold (decimal_value ds). rewrite Hv.
        unfold power_of_ten. rewrite N2Z.inj_mul, N2Z.inj_pow, Z2N.id, Z2Nat.id by lia. reflexivity.
      + intros a b. rewrite <- decimal_shift by lia. reflexivity. }
  assert (forall t, reads t c p -> exists c' p', reads t c' p' /\ forall a b, decimal_is c' p' a b <-> decimal_is c p a b) as Hsame.
  { intros t Ht. exists c, p. split; [exact Ht|]. reflexivity. }
  destruct (Z.ltb_spec 0 (Z.of_nat L + p)) as [C2|C2].
  - assert ((Z.to_nat (Z.of_nat L + p) <= L)%nat) as Hk by lia. destruct (split_at _ ds Hk) as (E1 & E2 & E3). fold L in E1, E3.
    revert E1 E2 E3. set (i := substring 0 _ ds). set (f := substring _ _ ds). intros E1 E2 E3.
    assert (only_digits i /\ only_digits f) as [Hi Hf] by (rewrite <- E1 in Hd; apply str_all_app in Hd; exact Hd).
    assert (SpecJson.digits i) as Hii.
    { split; auto. intros E. rewrite E in E2. change (String.length "") with 0%nat in E2. lia. }
    exists (i ++ "." ++ f). split; auto. split; [exists i, f; auto|].
    apply Hsame. replace p with (- len f)%Z by (unfold len; rewrite E3; lia). apply rd_dot; auto. rewrite E1. exact Hv.
  - pose proof (zeros_digits (Z.to_nat (- (Z.of_nat L + p)))) as Hzs.
    assert (only_digits (zeros (Z.to_nat (- (Z.of_nat L + p))) ++ ds)) as Hf by (apply str_all_app; auto).
    assert (SpecJson.digits "0") as H0 by (split; cbn; auto; discriminate).
    exists ("0" ++ "." ++ (zeros (Z.to_nat (- (Z.of_nat L + p))) ++ ds)). split; [left; reflexivity|]. split; [exists "0"; eauto|].
    apply Hsame. replace p with (- len (zeros (Z.to_nat (- (Z.of_nat L + p))) ++ ds))%Z at 2.
    + apply rd_dot; auto. unfold decimal_value. rewrite !value_app, value_zeros. exact Hv.
    + rewrite len_app. unfold len. rewrite zeros_length. fold L. lia.
Qed.

(** A finite value is shown by a literal of the same value, perhaps without its
    dot. *)
Lemma display_reads l : written l -> finite (double l) ->
  exists y, (y = display64 l \/ y = display64 l ++ ".") /\ written y /\ forall u, stands_for y u <-> stands_for l u.
Proof.
  intros Hl Hf. pose proof (double_binary l) as Hb. unfold finite in Hf. rewrite <- beyond_units in Hf.
  assert (forall u, stands_for l u <-> u = double l) as Hs.
  { intros u. destruct (C81_nearest l Hl) as [H1 H2]. split; [apply H2|intros ->; exact H1]. }
  unfold display64. destruct (N.leb_spec beyond (double l)) as [|_]; [lia|]. destruct (N.eqb_spec (double l) 0) as [E0|H0].
  - assert (SpecJson.digits "0") as Hz by (split; cbn; auto; discriminate).
    exists "0.". split; [right; reflexivity|]. split; [exists "0", ""; cbn; auto|]. intros u. rewrite Hs, E0.
    rewrite (stands_decimal "0." 0 0); [rewrite round_zero; reflexivity|]. apply amounts_same. exact (rd_dot "0" "" 0 Hz I eq_refl).
  - destruct (positional_reads (fst (shortest (double l))) (snd (shortest (double l)))) as (y & Hy & Hw & c & p & Hr & Hd).
    exists y. split; auto. split; auto. intros u. rewrite Hs.
    rewrite (stands_decimal y (fst (shortest (double l))) (snd (shortest (double l)))).
    + rewrite shortest_ok by auto. reflexivity.
    + intros a b. rewrite <- Hd. apply amounts_same. exact Hr.
Qed.
Lemma display_infinite l : ~ finite (double l) -> display64 l = "inf".
Proof.
  unfold finite. rewrite <- beyond_units. intros Hf. unfold display64. destruct (N.leb_spec beyond (double l)); [reflexivity|lia].
Qed.
(** In any case digits and dots, or "inf". *)
Lemma display_bytes l : display64 l = "inf" \/ str_all (fun c => is_digit c = true \/ c = "."%char) (display64 l).
Proof.
  unfold display64. destruct (beyond <=? double l); auto. right. destruct (double l =? 0); [cbn; auto|].
  assert (forall y, written y -> str_all (fun c => is_digit c = true \/ c = "."%char) y) as Hw.
  { intros y (i & f & [Hi _] & Hf & ->). apply str_all_app. split; [|apply str_all_app; split; [cbn; auto|]]; [revert Hi|revert Hf]; apply str_all_impl; auto. }
  destruct (positional_reads (fst (shortest (double l))) (snd (shortest (double l)))) as (y & [->|E] & Hy & _); apply Hw in Hy; auto.
  rewrite E in Hy. apply str_all_app in Hy. apply Hy.
Qed.
(** The text of [c * 10^p] has no dot, or as many decimals as [p] says. *)
Lemma positional_decimals c p : 0 < c -> natural (positional c p)
  \/ exists i f, positional c p = i ++ "." ++ f /\ natural i /\ SpecJson.digits f /\ p = (- len f)%Z.
Proof.
  intros Hc. pose proof (show_N_natural c) as Hnat.
  destruct (show_N_spec c) as (Hd & Hn & Hv).
  unfold positional. set (ds := show_N c) in *. set (L := String.length ds) in *.
  assert (L <> 0%nat) as HL by (destruct ds; [congruence|discriminate]).
  destruct (Z.leb_spec 0 p) as [C1|C1].
  { left. apply natural_app; auto; [|apply zeros_digits]. intros E. rewrite E in Hv. cbn in Hv. lia. }
  right. destruct (Z.ltb_spec 0 (Z.of_nat L + p)) as [C2|C2].
  - assert ((Z.to_nat (Z.of_nat L + p) <= L)%nat) as Hk by lia. destruct (split_at _ ds Hk) as (E1 & E2 & E3). fold L in E1, E3.
    revert E1 E2 E3. set (i := substring 0 _ ds). set (f := substring _ _ ds). intros E1 E2 E3.
    assert (only_digits i /\ only_digits f) as [Hi Hf] by (rewrite <- E1 in Hd; apply str_all_app in Hd; exact Hd).
    assert (f <> "") as Hf0 by (intros E; rewrite E in E3; change (String.length "") with 0%nat in E3; lia).
    exists i, f. split; [reflexivity|]. split; [|split; [split; auto|]].
    + apply (natural_prefix i f); auto; [rewrite E1; exact Hnat|].
      intros E. rewrite E in E2. change (String.length "") with 0%nat in E2. lia.
    + unfold len. rewrite E3. lia.
  - exists "0", (zeros (Z.to_nat (- (Z.of_nat L + p))) ++ ds). split; [reflexivity|]. split; [exact (show_N_natural 0)|]. split.
    + split; [apply str_all_app; split; auto; apply zeros_digits|]. intros E. apply (f_equal len) in E. rewrite len_app in E.
      unfold len in E. fold L in E. change (String.length "") with 0%nat in E. lia.
    + rewrite len_app. unfold len. rewrite zeros_length. fold L. lia.
Qed.
(** No literal of the same value has fewer decimals. *)
Lemma display_decimals l : written l -> finite (double l) ->
  natural (display64 l)
  \/ exists i f, display64 l = i ++ "." ++ f /\ natural i /\ SpecJson.digits f
     /\ forall i' f', SpecJson.digits i' -> only_digits f' -> (forall u, stands_for (i' ++ "." ++ f') u <-> stands_for l u) ->
          (String.length f <= String.length f')%nat.
Proof.
  intros Hl Hf. pose proof (double_binary l) as Hb. unfold finite in Hf. rewrite <- beyond_units in Hf.
  assert (stands_for l (double l)) as Hs by apply (C81_nearest l Hl).
  unfold display64. destruct (N.leb_spec beyond (double l)) as [|_]; [lia|]. destruct (N.eqb_spec (double l) 0) as [E0|H0].
  { left. exact (show_N_natural 0). }
  destruct (positional_decimals (fst (shortest (double l))) (snd (shortest (double l)))) as [H|(i & f & E & Hi & Hd & Ep)]; auto.
  { apply shortest_pos; auto. lia. }
  right. exists i, f. split; auto. split; auto. split; auto. intros i' f' Hi' Hf' Hu. apply Hu in Hs.
  pose proof (rd_dot i' f' (Z.to_N (decimal_value (i' ++ f'))) Hi' Hf') as Hr.
  assert (reads (i' ++ "." ++ f') (Z.to_N (decimal_value (i' ++ f'))) (- len f')) as Hr'.
  { apply Hr. rewrite Z2N.id; [reflexivity|]. apply (literal_digits (i' ++ f') false 0 0 ""). apply str_all_app. split; auto. apply Hi'. }
  rewrite (stands_decimal _ _ _ (amounts_same _ _ _ Hr')) in Hs.
  destruct (le_lt_dec (String.length f) (String.length f')) as [|Hlt]; auto. exfalso.
  apply (shortest_max (double l) Hb) with (c' := Z.to_N (decimal_value (i' ++ f'))) (p' := (- len f')%Z); [lia|lia|rewrite Ep; unfold len; lia|symmetry; exact Hs].
Qed.
