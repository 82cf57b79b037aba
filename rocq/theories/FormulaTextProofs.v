(** Proofs about the text of formulas. *)
From Coq Require Import String Ascii NArith ZArith Bool List Lia PeanoNat.
From Verif Require Import Base Token Ast Stack FormulaText StrFacts SpecLex PrintText Double DisplayProofs FormulaInd SpecStack SpecFormula.
Import ListNotations.
Open Scope string_scope.

(** ** Words and what ends them *)
Definition inner (c : ascii) : Prop := ~ In c ["("; ")"; ","; ":"; " "]%char.
Definition ends (s : string) : Prop := match s with EmptyString => True | String c _ => ~ inner c end.

Lemma word_inner s : str_all word_byte s -> str_all inner s.
Proof.
  apply str_all_impl. intros c [Hc|[-> | ->]] Hi; simpl in Hi.
  - repeat (destruct Hi as [<-|Hi]; [discriminate|]). destruct Hi.
  - repeat (destruct Hi as [Hi|Hi]; [discriminate|]). destruct Hi.
  - repeat (destruct Hi as [Hi|Hi]; [discriminate|]). destruct Hi.
Qed.
Lemma inner_split a b s t : str_all inner a -> str_all inner b -> ends s -> ends t -> a ++ s = b ++ t -> a = b /\ s = t.
Proof.
  revert b. induction a as [|c a IH]; intros [|e b] Ha Hb Hs Ht E; simpl in *.
  - auto.
  - subst s. simpl in Hs. tauto.
  - subst t. simpl in Ht. tauto.
  - injection E as -> E. destruct (IH b) as [-> ->]; tauto.
Qed.
Lemma ends_in c s : In c ["("; ")"; ","; ":"; " "]%char -> ends (String c s).
Proof. intros Hi Hn. exact (Hn Hi). Qed.
Ltac ends := apply ends_in; simpl; tauto.

Lemma digits_inner s : all_digits s -> str_all inner s.
Proof.
  apply str_all_impl. intros c Hc Hi. simpl in Hi. repeat (destruct Hi as [<-|Hi]; [discriminate|]). destruct Hi.
Qed.
Lemma number_inner w : str_all inner (show_number w).
Proof.
  destruct w as [l|z]; cbn [show_number].
  - destruct (display_bytes l) as [->|Hd].
    + cbn. unfold inner. simpl. repeat split; intros Hi; repeat (destruct Hi as [Hi|Hi]; [discriminate|]); destruct Hi.
    + revert Hd. apply str_all_impl. intros c [Hc| ->] Hi; simpl in Hi.
      * repeat (destruct Hi as [<-|Hi]; [discriminate|]). destruct Hi.
      * repeat (destruct Hi as [Hi|Hi]; [discriminate|]). destruct Hi.
  - unfold show_Z. destruct z as [|p|p]; try (apply digits_inner, show_N_spec). split; [|apply digits_inner, show_N_spec].
    intros Hi; simpl in Hi; repeat (destruct Hi as [Hi|Hi]; [discriminate|]); destruct Hi.
Qed.

(** What may follow a formula. *)
Definition stop (s : string) : Prop :=
  s = "" \/ (exists r, s = String ")" r) \/ exists sep r, In sep [and_sep; or_sep; xor_sep] /\ s = sep ++ r.
Lemma stop_ends s : stop s -> ends s.
Proof.
  intros [->|[(r & ->)|(sep & r & Hi & ->)]]; [exact I|ends|]. destruct Hi as [<-|[<-|[<-|[]]]]; simpl; ends.
Qed.
Lemma stop_imply s t : stop s -> s <> imply_sep ++ t.
Proof.
  intros [->|[(r & ->)|(sep & r & Hi & ->)]]; try discriminate. destruct Hi as [<-|[<-|[<-|[]]]]; discriminate.
Qed.

(** ** Variables *)
Lemma vars_text_inj : forall vs ws s t,
  Forall (fun v => str_all word_byte (sym_name v)) vs -> Forall (fun v => str_all word_byte (sym_name v)) ws ->
  vars_text vs ++ String ")" s = vars_text ws ++ String ")" t -> map blur_symbol vs = map blur_symbol ws /\ s = t.
Proof.
  assert (forall v vs s t, str_all word_byte (sym_name v) -> String ")" s <> vars_text (v :: vs) ++ String ")" t) as Hne.
  { intros v vs s t Hv E. apply word_inner in Hv. cbn [vars_text] in E. rewrite app_assoc_s in E. cbn [append] in E.
    apply (inner_split "" (sym_name v)) in E as [_ E]; auto; try ends; try exact I. discriminate. }
  induction vs as [|v vs IH]; intros [|w ws] s t Hv Hw E.
  - injection E as ->. auto.
  - inversion Hw; subst. apply Hne in E; auto. destruct E.
  - inversion Hv; subst. symmetry in E. apply Hne in E; auto. destruct E.
  - inversion Hv as [|? ? Hv1 Hv2]; inversion Hw as [|? ? Hw1 Hw2]; subst. cbn [vars_text] in E. rewrite !app_assoc_s in E. cbn [append] in E.
    apply inner_split in E as [E1 E]; auto using word_inner; try ends. injection E as E. apply IH in E as [E ->]; auto.
    split; auto. cbn [map]. unfold blur_symbol at 1 3. rewrite E1, E. reflexivity.
Qed.

(** A list joined by a separator: the first, and the others behind separators. *)
Fixpoint behind (sep : string) (l : list string) : string :=
  match l with [] => "" | x :: l' => sep ++ x ++ behind sep l' end.
Lemma concat_behind sep x l : String.concat sep (x :: l) = x ++ behind sep l.
Proof.
  revert x. induction l as [|y l IH]; intros x; [cbn; rewrite app_nil_r_s; reflexivity|].
  change (String.concat sep (x :: y :: l)) with (x ++ sep ++ String.concat sep (y :: l)). rewrite IH. reflexivity.
Qed.

Lemma names_inj : forall vs ws s t,
  Forall (fun v => word (sym_name v)) vs -> Forall (fun v => word (sym_name v)) ws ->
  String.concat ", " (map sym_name vs) ++ ": " ++ s = String.concat ", " (map sym_name ws) ++ ": " ++ t ->
  map blur_symbol vs = map blur_symbol ws /\ s = t.
Proof.
  assert (forall vs ws s t, Forall (fun v => word (sym_name v)) vs -> Forall (fun v => word (sym_name v)) ws ->
    behind ", " (map sym_name vs) ++ ": " ++ s = behind ", " (map sym_name ws) ++ ": " ++ t ->
    map blur_symbol vs = map blur_symbol ws /\ s = t) as Hb.
  { induction vs as [|v vs IH]; intros [|w ws] s t Hv Hw E; try discriminate.
    - injection E as ->. auto.
    - inversion Hv as [|? ? [_ Hv1] Hv2]; inversion Hw as [|? ? [_ Hw1] Hw2]; subst.
      cbn [map behind] in E. rewrite !app_assoc_s in E. cbn [append] in E. injection E as E.
      apply inner_split in E as [E1 E]; auto using word_inner.
      + apply IH in E as [E ->]; auto. split; auto. cbn [map]. unfold blur_symbol at 1 3. rewrite E1, E. reflexivity.
      + destruct vs; cbn; ends.
      + destruct ws; cbn; ends. }
  assert (forall w s t, word w -> ": " ++ s <> w ++ t) as Hne.
  { intros [|c w] s t [Hn Hw] E; [congruence|]. apply word_inner in Hw. destruct Hw as [Hc _]. injection E as <- E. apply Hc. simpl. tauto. }
  intros [|v vs] [|w ws] s t Hv Hw E.
  - injection E as ->. auto.
  - cbn [map] in E. rewrite concat_behind, app_assoc_s in E. inversion Hw; subst. apply Hne in E; auto. destruct E.
  - cbn [map] in E. rewrite concat_behind, app_assoc_s in E. inversion Hv; subst. symmetry in E. apply Hne in E; auto. destruct E.
  - cbn [map] in E. rewrite !concat_behind, !app_assoc_s in E.
    inversion Hv as [|? ? [_ Hv1] Hv2]; inversion Hw as [|? ? [_ Hw1] Hw2]; subst.
    apply inner_split in E as [E1 E]; auto using word_inner.
    + apply Hb in E as [E ->]; auto. split; auto. cbn [map]. unfold blur_symbol at 1 3. rewrite E1, E. reflexivity.
    + destruct vs; cbn; ends.
    + destruct ws; cbn; ends.
Qed.

(** ** Formulas *)
Definition starts_like (s : string) : Prop := match s with EmptyString => False | String c _ => c <> ")"%char end.
Lemma word_first w s : word w -> starts_like (w ++ s).
Proof.
  destruct w as [|c w]; intros [Hn Hw]; [congruence|]. apply word_inner in Hw as [Hc _]. cbn. intros ->. apply Hc. simpl. tauto.
Qed.
Lemma text_first f s : worded f -> starts_like (formula_text f ++ s).
Proof.
  intros Hf. destruct Hf; try discriminate.
  - unfold formula_text. cbn [formula_text_with]. unfold pred_text. rewrite app_assoc_s. apply word_first; auto.
  - unfold formula_text. cbn [formula_text_with]. apply word_inner in H. destruct a as [|c a]; [discriminate|].
    destruct H as [Hc _]. cbn. intros ->. apply Hc. simpl. tauto.
Qed.

Definition tells (f : formula) : Prop := worded f -> forall g s t, worded g -> stop s -> stop t ->
  formula_text f ++ s = formula_text g ++ t -> blur f = blur g /\ s = t.

Definition texts (fs : list formula) : list string := map formula_text fs.
Lemma stop_behind sep fs s : In sep [and_sep; or_sep; xor_sep] -> stop (behind sep (texts fs) ++ String ")" s).
Proof.
  intros Hi. destruct fs as [|f fs]; [right; left; exists s; reflexivity|]. right; right.
  exists sep, ((formula_text f ++ behind sep (texts fs)) ++ String ")" s). split; auto.
  unfold texts. cbn [map behind]. rewrite !app_assoc_s. reflexivity.
Qed.
Lemma sep_same sep sep' a b : In sep [and_sep; or_sep; xor_sep] -> In sep' [and_sep; or_sep; xor_sep] ->
  sep ++ a = sep' ++ b -> sep = sep' /\ a = b.
Proof.
  intros Hi Hj E. destruct Hi as [<-|[<-|[<-|[]]]], Hj as [<-|[<-|[<-|[]]]]; try discriminate; apply app_inv_head_s in E; auto.
Qed.
Lemma behind_inj : forall fs, Forall tells fs -> Forall worded fs -> forall gs sep sep' s t, Forall worded gs ->
  In sep [and_sep; or_sep; xor_sep] -> In sep' [and_sep; or_sep; xor_sep] ->
  behind sep (texts fs) ++ String ")" s = behind sep' (texts gs) ++ String ")" t ->
  map blur fs = map blur gs /\ s = t /\ (fs = [] \/ sep = sep').
Proof.
  induction 1 as [|f fs Hf _ IH]; intros Hfs [|g gs] sep sep' s t Hgs Hi Hj E.
  - injection E as ->. auto.
  - exfalso. cbn [texts map behind] in E. rewrite app_assoc_s in E. destruct Hj as [<-|[<-|[<-|[]]]]; discriminate.
  - exfalso. cbn [texts map behind] in E. rewrite app_assoc_s in E. destruct Hi as [<-|[<-|[<-|[]]]]; discriminate.
  - inversion Hfs as [|? ? Hf1 Hf2]; inversion Hgs as [|? ? Hg1 Hg2]; subst.
    cbn [texts map behind] in E. rewrite !app_assoc_s in E. apply sep_same in E as [-> E]; auto.
    apply Hf in E as [E1 E]; auto using stop_behind. apply IH in E as (E2 & -> & _); auto.
    cbn [map]. rewrite E1, E2. auto.
Qed.
Lemma block_inj fs gs sep sep' s t : Forall tells fs -> Forall worded fs -> Forall worded gs ->
  In sep [and_sep; or_sep; xor_sep] -> In sep' [and_sep; or_sep; xor_sep] ->
  String.concat sep (texts fs) ++ String ")" s = String.concat sep' (texts gs) ++ String ")" t ->
  map blur fs = map blur gs /\ s = t /\ (joins fs = false \/ sep = sep').
Proof.
  assert (forall f r s, worded f -> String ")" s <> formula_text f ++ r) as Hne.
  { intros f r s0 Hf E. pose proof (text_first f r Hf) as Hs. rewrite <- E in Hs. apply Hs. reflexivity. }
  intros Ht Hfs Hgs Hi Hj E. destruct fs as [|f fs], gs as [|g gs].
  - injection E as ->. auto.
  - exfalso. inversion Hgs; subst. unfold texts in E. cbn [map] in E. rewrite concat_behind, app_assoc_s in E. apply Hne in E; auto.
  - exfalso. inversion Hfs; subst. unfold texts in E. cbn [map] in E. rewrite concat_behind, app_assoc_s in E. symmetry in E. apply Hne in E; auto.
  - inversion Hfs as [|? ? Hf1 Hf2]; inversion Hgs as [|? ? Hg1 Hg2]; inversion Ht as [|? ? Ht1 Ht2]; subst.
    unfold texts in E. cbn [map] in E. rewrite !concat_behind, !app_assoc_s in E.
    apply Ht1 in E as [E1 E]; auto using stop_behind. apply behind_inj in E as (E2 & -> & Hs); auto.
    cbn [map]. rewrite E1, E2. repeat split; auto. destruct Hs as [->|Hs]; auto.
Qed.

(** What a text begins with tells the kind of formula. *)
Fixpoint begins (a s : string) {struct a} : bool :=
  match a with
  | EmptyString => true
  | String x a' => match s with EmptyString => false | String y s' => if ascii_dec x y then begins a' s' else false end
  end.
Fixpoint first_end (s : string) : option ascii :=
  match s with
  | EmptyString => None
  | String c s' => if existsb (Ascii.eqb c) ["("; ")"; ","; ":"; " "]%char then Some c else first_end s'
  end.
Definition end_kind (o : option ascii) : nat :=
  match o with Some "("%char => 6 | Some ":"%char => 7 | Some " "%char => 8 | _ => 9 end.
Definition kind_of (s : string) : nat :=
  if begins "(" s then 1
  else if begins sym_empty s then 2
  else if begins sym_exists s then 3
  else if begins sym_forall s then 4
  else if begins sym_not s then 5
  else end_kind (first_end s).
Definition kind (f : formula) : nat :=
  match f with
  | FEmpty => 2
  | FAtom _ => 6
  | FNot _ => 5
  | FAnd _ | FOr _ | FXor _ | FImply _ _ => 1
  | FExists _ _ => 3
  | FForAll _ _ => 4
  | FWeighted _ _ => 7
  | FEquals _ _ => 8
  end.

Lemma begins_word x y z w d r : ~ word_byte y -> str_all word_byte w -> d <> y -> d <> x -> begins (String x (String y z)) (w ++ String d r) = false.
Proof.
  intros Hy Hw Hd Hx. destruct w as [|c w]; cbn [append begins].
  - destruct (ascii_dec x d); congruence.
  - destruct (ascii_dec x c) as [_|_]; auto. destruct w as [|e w]; cbn [append begins].
    + destruct (ascii_dec y d); congruence.
    + destruct (ascii_dec y e) as [<-|]; auto. destruct Hw as (_ & Hw & _). tauto.
Qed.
Lemma first_end_word w d r : str_all word_byte w -> In d ["("; ")"; ","; ":"; " "]%char -> first_end (w ++ String d r) = Some d.
Proof.
  intros Hw Hd. apply word_inner in Hw. induction w as [|c w IH]; cbn [append first_end].
  - replace (existsb (Ascii.eqb d) ["("; ")"; ","; ":"; " "]%char) with true; auto. symmetry. apply existsb_exists.
    exists d. split; auto. apply Ascii.eqb_refl.
  - destruct Hw as [Hc Hw]. destruct (existsb (Ascii.eqb c) ["("; ")"; ","; ":"; " "]%char) eqn:E; auto.
    exfalso. apply existsb_exists in E as (x & Hx & E). apply Ascii.eqb_eq in E as ->. auto.
Qed.
Lemma kind_word w d r : str_all word_byte w -> In d [":"; " "]%char \/ (d = "("%char /\ w <> "") ->
  kind_of (w ++ String d r) = end_kind (Some d).
Proof.
  intros Hw Hd.
  assert (forall y, In y ["136"; "172"]%char -> ~ word_byte y) as Hm.
  { intros y [<-|[<-|[]]] [Hb|[Hb|Hb]]; discriminate. }
  assert (begins "(" (w ++ String d r) = false) as Hp.
  { destruct w as [|c w]; cbn [append begins].
    - destruct (ascii_dec "(" d) as [<-|]; auto. destruct Hd as [[Hd|[Hd|[]]]|[_ Hd]]; congruence.
    - destruct (ascii_dec "(" c) as [<-|]; auto. apply word_inner in Hw as [Hc _]. exfalso. apply Hc. simpl. tauto. }
  assert (In d ["("; ")"; ","; ":"; " "]%char) as Hi.
  { destruct Hd as [[<-|[<-|[]]]|[-> _]]; simpl; tauto. }
  assert (forall x, In x ["226"; "194"; "136"; "172"]%char -> d <> x) as Hx.
  { intros x Hx ->. simpl in Hi. repeat (destruct Hi as [<-|Hi]; [repeat (destruct Hx as [Hx|Hx]; [discriminate|]); destruct Hx|]). destruct Hi. }
  unfold kind_of, sym_empty, sym_exists, sym_forall, sym_not. rewrite Hp.
  rewrite !begins_word; auto; try (apply Hx; simpl; tauto); try (apply Hm; simpl; tauto).
  rewrite first_end_word; auto.
Qed.
Lemma kind_text f s : worded f -> kind_of (formula_text f ++ s) = kind f.
Proof.
  intros Hf. destruct Hf as [|p [Hn Hp] _|f _|fs _|fs _|fs _|ps qs _ _|vs f _ _|vs f _ _|w f _|a b Ha Hb];
    unfold formula_text; cbn [formula_text_with kind]; try reflexivity.
  - unfold pred_text. rewrite app_assoc_s. cbn [append]. rewrite kind_word; auto.
  - rewrite app_assoc_s. cbn [append]. rewrite kind_word; simpl; auto.
Qed.

Lemma blur_join (fs gs : list formula) : map blur fs = map blur gs -> joins fs = joins gs.
Proof. destruct fs as [|? [|? ?]], gs as [|? [|? ?]]; intros E; try discriminate; reflexivity. Qed.

Ltac sep_in := simpl; tauto.
Lemma connective_tells fs gs sep sep' s t (c c' : list formula -> formula) :
  Forall tells fs -> Forall worded fs -> Forall worded gs ->
  In (sep, c) [(and_sep, FAnd); (or_sep, FOr); (xor_sep, FXor)] -> In (sep', c') [(and_sep, FAnd); (or_sep, FOr); (xor_sep, FXor)] ->
  String.concat sep (texts fs) ++ String ")" s = String.concat sep' (texts gs) ++ String ")" t ->
  blur (c fs) = blur (c' gs) /\ s = t.
Proof.
  intros Ht Hf Hg Hc Hc' E. apply block_inj in E as (E & -> & Hj); auto.
  - split; auto. pose proof (blur_join _ _ E) as Eb.
    destruct Hj as [Hj | ->].
    + rewrite Hj in Eb.
      destruct Hc as [Hc|[Hc|[Hc|[]]]], Hc' as [Hc'|[Hc'|[Hc'|[]]]]; injection Hc as <- <-; injection Hc' as <- <-;
        cbn [blur]; rewrite ?Hj, <- ?Eb, E; reflexivity.
    + destruct Hc as [Hc|[Hc|[Hc|[]]]], Hc' as [Hc'|[Hc'|[Hc'|[]]]]; inversion Hc; inversion Hc'; subst;
        try discriminate; cbn [blur]; rewrite ?Eb, E; reflexivity.
  - destruct Hc as [Hc|[Hc|[Hc|[]]]]; injection Hc as <- _; sep_in.
  - destruct Hc' as [Hd|[Hd|[Hd|[]]]]; injection Hd as <- _; sep_in.
Qed.

Lemma ft_eqs f : formula_text f = match f with
  | FEmpty => sym_empty
  | FAtom p => pred_text p
  | FNot g => sym_not ++ String "(" (formula_text g ++ String ")" "")
  | FAnd fs => String "(" (String.concat and_sep (texts fs) ++ String ")" "")
  | FOr fs => String "(" (String.concat or_sep (texts fs) ++ String ")" "")
  | FXor fs => String "(" (String.concat xor_sep (texts fs) ++ String ")" "")
  | FImply ps qs =>
    String "(" (String.concat and_sep (texts ps) ++ String ")" (imply_sep ++
    String "(" (String.concat and_sep (texts qs) ++ String ")" "")))
  | FExists vs g => sym_exists ++ String.concat ", " (map sym_name vs) ++ ": " ++ formula_text g
  | FForAll vs g => sym_forall ++ String.concat ", " (map sym_name vs) ++ ": " ++ formula_text g
  | FWeighted w g => "weight: " ++ show_number w ++ ", formula: " ++ formula_text g
  | FEquals a b => a ++ " = " ++ b
  end.
Proof. destruct f; reflexivity. Qed.

Lemma app_string c a s : String c a ++ s = String c (a ++ s).
Proof. reflexivity. Qed.

Ltac norm E := repeat (progress rewrite ?app_assoc_s, ?app_string in E); repeat match type of E with context [EmptyString ++ ?x] => change (EmptyString ++ x) with x in E end.

Lemma tells_all f : tells f.
Proof.
  induction f using formula_nested_ind; intros Hf g s t Hg Hs Ht E;
    assert (kind_of (formula_text g ++ t) = kind_of (formula_text g ++ t)) as Ek by reflexivity;
    rewrite <- E in Ek at 1; rewrite !kind_text in Ek by auto;
    rewrite (ft_eqs g) in E; match type of E with formula_text ?f ++ _ = _ => rewrite (ft_eqs f) in E end;
    destruct g as [|q0|g0|gs0|gs0|gs0|hs0 ks0|ws0 g0|ws0 g0|w0 g0|c0 e0]; try discriminate Ek; clear Ek;
    inversion Hf; inversion Hg; subst; cbn iota in E; rewrite ?app_assoc_s, ?app_string in E.
  all: try (apply (f_equal (fun x => match x with String _ r => r | _ => "" end)) in E; cbn beta iota in E;
            rewrite ?app_assoc_s, ?app_string in E;
            change ("" ++ s) with s in E; change ("" ++ t) with t in E;
            eapply connective_tells in E; [exact E|assumption|assumption|assumption|simpl; tauto|simpl; tauto]).
  - apply app_inv_head_s in E. auto.
  - unfold pred_text in E. rewrite !app_assoc_s, !app_string, !app_assoc_s, !app_string in E.
    match goal with H1 : word (pred_name p), H2 : word (pred_name q0) |- _ => destruct H1 as [_ H1], H2 as [_ H2];
      apply inner_split in E as [E1 E]; [|apply word_inner; assumption|apply word_inner; assumption|ends|ends] end.
    injection E as E. norm E. apply vars_text_inj in E as [E2 E]; auto. split; auto. cbn [blur]. unfold blur_pred. rewrite E1, E2. reflexivity.
  - apply app_inv_head_s in E. injection E as E. norm E. apply IHf in E as [E1 E]; auto; try (right; left; eexists; reflexivity).
    injection E as E. norm E. split; auto. cbn [blur]. rewrite E1. reflexivity.
  - injection E as E. norm E. apply block_inj in E as (_ & E & _); auto; try sep_in. destruct (stop_imply s _ Hs E).
  - injection E as E. norm E. apply block_inj in E as (_ & E & _); auto; try sep_in. destruct (stop_imply s _ Hs E).
  - injection E as E. norm E. apply block_inj in E as (_ & E & _); auto; try sep_in. destruct (stop_imply s _ Hs E).
  - injection E as E. norm E. apply block_inj in E as (_ & E & _); auto; try sep_in. symmetry in E. destruct (stop_imply t _ Ht E).
  - injection E as E. norm E. apply block_inj in E as (_ & E & _); auto; try sep_in. symmetry in E. destruct (stop_imply t _ Ht E).
  - injection E as E. norm E. apply block_inj in E as (_ & E & _); auto; try sep_in. symmetry in E. destruct (stop_imply t _ Ht E).
  - injection E as E. norm E. apply block_inj in E as (E1 & E & _); auto; try sep_in. injection E as E.
    apply block_inj in E as (E2 & E & _); auto; try sep_in. split; auto. cbn [blur]. rewrite E1, E2. reflexivity.
  - apply app_inv_head_s in E. norm E. apply names_inj in E as [E1 E]; auto. apply IHf in E as [E2 E]; auto.
    split; auto. cbn [blur]. rewrite E1, E2. reflexivity.
  - apply app_inv_head_s in E. norm E. apply names_inj in E as [E1 E]; auto. apply IHf in E as [E2 E]; auto.
    split; auto. cbn [blur]. rewrite E1, E2. reflexivity.
  - do 8 (apply (f_equal (fun x => match x with String _ r => r | _ => "" end)) in E; cbn beta iota in E).
    rewrite ?app_string in E. norm E.
    apply inner_split in E as [E1 E]; [|apply number_inner|apply number_inner|ends|ends].
    do 11 (apply (f_equal (fun x => match x with String _ r => r | _ => "" end)) in E; cbn beta iota in E).
    apply IHf in E as [E2 E]; auto. split; auto. cbn [blur]. unfold blur_number. rewrite E1, E2. reflexivity.
  - apply inner_split in E as [-> E]; [|apply word_inner; assumption|apply word_inner; assumption|ends|ends].
    do 3 (apply (f_equal (fun x => match x with String _ r => r | _ => "" end)) in E; cbn beta iota in E).
    norm E. apply inner_split in E as [E1 E]; [|apply word_inner; assumption|apply word_inner; assumption|apply stop_ends; assumption|apply stop_ends; assumption].
    split; auto. cbn [blur]. rewrite E1. reflexivity.
Qed.

Lemma text_tells f g : worded f -> worded g -> formula_text f = formula_text g -> blur f = blur g.
Proof.
  intros Hf Hg E. assert (formula_text f ++ "" = formula_text g ++ "") as E' by (rewrite E; reflexivity).
  apply tells_all in E' as [E' _]; auto; left; reflexivity.
Qed.

(** The text depends on nothing else. *)
Definition raw (w : number) : string := match w with Real l => l | Integer _ => "" end.
Lemma vars_blur vs : vars_text (map blur_symbol vs) = vars_text vs.
Proof. induction vs as [|v vs IH]; cbn; auto. rewrite IH. reflexivity. Qed.
Lemma names_blur vs : map sym_name (map blur_symbol vs) = map sym_name vs.
Proof. rewrite map_map. apply map_ext. reflexivity. Qed.
Lemma text_blur f : formula_text_with raw (blur f) = formula_text f.
Proof.
  unfold formula_text. induction f as [|p|f IH|fs IH|fs IH|fs IH|ps qs IHp IHq|vs f IH|vs f IH|w f IH|a b] using formula_nested_ind;
    cbn [blur formula_text_with]; rewrite ?IH, ?names_blur; auto.
  - unfold pred_text. cbn. rewrite vars_blur. reflexivity.
  - rewrite map_map, (map_ext_Forall _ _ IH). reflexivity.
  - rewrite <- (map_ext_Forall _ _ IH), <- (map_map blur (formula_text_with raw)). destruct fs as [|? [|? ?]]; reflexivity.
  - rewrite <- (map_ext_Forall _ _ IH), <- (map_map blur (formula_text_with raw)). destruct fs as [|? [|? ?]]; reflexivity.
  - rewrite !map_map, (map_ext_Forall _ _ IHp), (map_ext_Forall _ _ IHq). reflexivity.
Qed.
Lemma blur_text f g : blur f = blur g -> formula_text f = formula_text g.
Proof. intros E. rewrite <- text_blur, E. apply text_blur. Qed.

(** ** The depth of the calls *)
Definition measures (d : nat) (f : formula) : Prop :=
  formula_text_in d f = if (d <? height f)%nat then Overflow else Fits (formula_text f).
Lemma each_measures d fs : Forall (measures d) fs ->
  each_text (formula_text_in d) fs = if (d <? list_max (map height fs))%nat then Overflow else Fits (texts fs).
Proof.
  induction 1 as [|f fs Hf _ IH]; [cbn; reflexivity|]. cbn [each_text map list_max fold_right]. fold (list_max (map height fs)).
  rewrite Hf, IH. destruct (Nat.ltb_spec d (height f)), (Nat.ltb_spec d (list_max (map height fs))),
    (Nat.ltb_spec d (Nat.max (height f) (list_max (map height fs)))); try lia; reflexivity.
Qed.
Lemma text_in_exact f : forall d, measures d f.
Proof.
  induction f as [|p|f IH|fs IH|fs IH|fs IH|ps qs IHp IHq|vs f IH|vs f IH|w f IH|a b] using formula_nested_ind; intros [|d]; unfold measures; try reflexivity;
    cbn [formula_text_in height]; rewrite ?IH;
    try (rewrite each_measures by (eapply Forall_impl; [|exact IH]; intros ? Hx; apply Hx));
    try (rewrite !each_measures by (eapply Forall_impl; [|first [exact IHp|exact IHq]]; intros ? Hx; apply Hx)).
  all: repeat match goal with |- context [(S ?y <? S ?x)%nat] => change (S y <? S x)%nat with (y <? x)%nat end.
  all: try (match goal with |- context [(?y <? ?x)%nat] => destruct (y <? x)%nat; reflexivity end).
  destruct (Nat.ltb_spec d (list_max (map height ps))), (Nat.ltb_spec d (list_max (map height qs))),
    (Nat.ltb_spec d (Nat.max (list_max (map height ps)) (list_max (map height qs)))); try lia; reflexivity.
Qed.
