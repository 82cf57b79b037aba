(** Facts about strings (byte sequences) used throughout the proofs. *)
From Coq Require Import String Ascii NArith ZArith Bool List Lia.
Import ListNotations.
Open Scope string_scope.

(** Number of newline bytes of a text. *)
Fixpoint count_nl (s : string) : N :=
  match s with
  | EmptyString => 0
  | String c s' => ((if Ascii.eqb c "010" then 1 else 0) + count_nl s')%N
  end.

(** [c] occurs in [s]. *)
Fixpoint str_in (c : ascii) (s : string) : Prop :=
  match s with
  | EmptyString => False
  | String d s' => d = c \/ str_in c s'
  end.

(** Every byte of [s] satisfies [P]. *)
Fixpoint str_all (P : ascii -> Prop) (s : string) : Prop :=
  match s with
  | EmptyString => True
  | String c s' => P c /\ str_all P s'
  end.

(** [s] starts with the byte [c]. *)
Definition starts_with (c : ascii) (s : string) : Prop :=
  match s with String d _ => d = c | EmptyString => False end.

(** The last byte of [s], if any, satisfies [P]. *)
Fixpoint str_last (P : ascii -> Prop) (s : string) : Prop :=
  match s with
  | EmptyString => True
  | String c EmptyString => P c
  | String c s' => str_last P s'
  end.

Lemma app_assoc_s (a b c : string) : (a ++ b) ++ c = a ++ (b ++ c).
Proof. induction a; simpl; congruence. Qed.

Lemma app_nil_r_s (a : string) : a ++ "" = a.
Proof. induction a; simpl; congruence. Qed.

Lemma app_length_s (a b : string) :
  String.length (a ++ b) = (String.length a + String.length b)%nat.
Proof. induction a; simpl; congruence. Qed.

Lemma app_inv_head_s (a b c : string) : a ++ b = a ++ c -> b = c.
Proof. induction a; simpl; [auto|]. intros E; injection E; auto. Qed.

Lemma app_inv_tail_s (a b c : string) : a ++ c = b ++ c -> a = b.
Proof.
  revert b; induction a as [|x a IH]; intros [|y b] E; simpl in *; auto.
  - apply (f_equal String.length) in E; simpl in E; rewrite app_length_s in E; lia.
  - apply (f_equal String.length) in E; simpl in E; rewrite app_length_s in E; lia.
  - injection E as -> E; f_equal; auto.
Qed.

(** Two factorizations of the same string are comparable. *)
Lemma app_split_s (a b c d : string) :
  a ++ b = c ++ d ->
  (exists m, c = a ++ m /\ b = m ++ d) \/ (exists m, a = c ++ m /\ d = m ++ b).
Proof.
  revert c; induction a as [|x a IH]; intros [|y c] E; simpl in *.
  - left; exists ""; auto.
  - left; exists (String y c); auto.
  - right; exists (String x a); auto.
  - injection E as -> E.
    destruct (IH _ E) as [(m & -> & ->)|(m & -> & ->)]; [left|right]; exists m; auto.
Qed.

Lemma count_nl_app (a b : string) : count_nl (a ++ b) = (count_nl a + count_nl b)%N.
Proof. induction a; simpl; [reflexivity|]. rewrite IHa; lia. Qed.

Lemma count_nl_none (s : string) : ~ str_in "010" s -> count_nl s = 0%N.
Proof.
  induction s as [|c s IH]; simpl; [reflexivity|]. intros H.
  destruct (Ascii.eqb_spec c "010") as [->|]; [exfalso; auto|].
  rewrite IH; auto.
Qed.

Lemma str_all_app P (a b : string) : str_all P (a ++ b) <-> str_all P a /\ str_all P b.
Proof. induction a; simpl; tauto. Qed.

Lemma str_all_impl (P Q : ascii -> Prop) (s : string) :
  (forall c, P c -> Q c) -> str_all P s -> str_all Q s.
Proof. intros H; induction s; simpl; firstorder. Qed.

Lemma str_in_app c (a b : string) : str_in c (a ++ b) <-> str_in c a \/ str_in c b.
Proof. induction a; simpl; tauto. Qed.

Lemma str_all_in P (s : string) c : str_all P s -> str_in c s -> P c.
Proof. induction s; simpl; [tauto|]. intros [H1 H2] [->|H]; auto. Qed.

Lemma str_last_app P (a b : string) : b <> "" -> str_last P (a ++ b) <-> str_last P b.
Proof.
  intros Hb; induction a as [|c a IH]; simpl; [tauto|].
  destruct (a ++ b) eqn:E; [|exact IH].
  destruct a; simpl in E; [congruence|discriminate].
Qed.

Lemma str_last_suffix P (a b : string) : str_last P (a ++ b) -> str_last P b.
Proof.
  destruct b as [|c b]; [simpl; auto|]. intros H.
  apply str_last_app in H; [exact H|discriminate].
Qed.

Lemma str_last_all P (s : string) : str_all P s -> str_last P s.
Proof.
  induction s as [|c s IH]; simpl; [auto|]. intros [H1 H2].
  destruct s; auto.
Qed.

Lemma str_last_impl (P Q : ascii -> Prop) (s : string) :
  (forall c, P c -> Q c) -> str_last P s -> str_last Q s.
Proof.
  intros H; induction s as [|c s IH]; simpl; [auto|]. destruct s; auto.
Qed.

(** A non-empty string splits into its front and its last byte. *)
Lemma str_snoc (s : string) : s <> "" -> exists f c, s = f ++ String c "".
Proof.
  induction s as [|c s IH]; [congruence|]. intros _.
  destruct s as [|d s].
  - exists "", c; reflexivity.
  - destruct IH as (f & e & E); [discriminate|].
    exists (String c f), e; simpl; rewrite E; reflexivity.
Qed.

Lemma str_nonempty_app_r (a b : string) : b <> "" -> a ++ b <> "".
Proof. destruct a; simpl; [auto|discriminate]. Qed.
