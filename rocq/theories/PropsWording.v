(** Property theorem about the wording of messages: C47.  Specification:
    SpecWording.v. *)
From Coq Require Import String Ascii NArith ZArith Bool List.
From Verif Require Import Base Token Lexer Errors StrFacts SpecLex SpecText PrintText SpecWording.
Import ListNotations.
Open Scope string_scope.

(** A text that begins with the words looked for, or has them further on. *)
Lemma m_here a b : mentions (a ++ b) a.
Proof. exists "", b. reflexivity. Qed.
Lemma m_all a : mentions a a.
Proof. exists "", "". rewrite app_nil_r_s. reflexivity. Qed.
Lemma m_char c m x : mentions m x -> mentions (String c m) x.
Proof. intros (a & b & ->). exists (String c a), b. reflexivity. Qed.
Lemma m_skip a m x : mentions m x -> mentions (a ++ m) x.
Proof. intros (u & v & ->). exists (a ++ u), v. rewrite !app_assoc_s. reflexivity. Qed.
(** What is left of the words looked for when the text has begun with some. *)
Definition from (m x : string) : Prop := exists b, m = x ++ b.
Lemma from_mentions m x : from m x -> mentions m x.
Proof. intros (b & ->). apply m_here. Qed.
Lemma f_end m : from m "".
Proof. exists m. reflexivity. Qed.
Lemma f_char c m x : from m x -> from (String c m) (String c x).
Proof. intros (b & ->). exists b. reflexivity. Qed.
Lemma f_app a m x : from m x -> from (a ++ m) (a ++ x).
Proof. intros (b & ->). exists b. rewrite app_assoc_s. reflexivity. Qed.

Ltac from := solve [repeat first [apply f_end | apply f_char | apply f_app]].
Ltac seek := cbn [append]; repeat first [apply from_mentions; from | apply m_char | apply m_skip].
Lemma numeral_show n : numeral (show_N n) n.
Proof. apply show_N_spec. Qed.
Ltac number := eexists; split; [apply numeral_show|seek].

(** Every message says which of its names and numbers is which. *)
Theorem C47_wording : forall e m, show_parsing_error e = Some m -> wording e m.
Proof.
  assert (forall kind d, says_twice kind d (kind ++ " " ++ show_dup d)) as Hd.
  { intros kind [s l1 l2]. unfold says_twice, show_dup. cbn [dup_symbol dup_first dup_second]. split; [|split].
    - exists "", (" is first defined in line " ++ show_N l1 ++ ", and then redefined in line " ++ show_N l2 ++ ".").
      cbn [append]. rewrite !app_assoc_s. cbn [append]. rewrite !app_assoc_s. reflexivity.
    - number.
    - number. }
  assert (forall kind u, says_undefined kind u (show_undef kind u)) as Hu.
  { intros kind [s l]. unfold says_undefined, show_undef. cbn [un_symbol un_pos]. seek. }
  assert (forall t m, show_type_err t = Some m -> says_type t m) as Ht.
  { intros [ex fo v l] m E. unfold says_type, show_type_err in *. cbn [ty_expected ty_found ty_var ty_pos] in *. revert E.
    destruct ex as [ex|], fo as [fo|]; intros E; try discriminate; injection E as <-; cbn [append]; repeat (rewrite app_assoc_s; cbn [append]);
      (split; [|split]); seek. }
  intros [e|e|e] m E; cbn [show_parsing_error] in E.
  - injection E as <-. cbn [wording]. unfold show_lex_err. destruct (le_type e); seek.
  - injection E as <-. cbn [wording]. unfold show_syn_err. seek.
  - destruct e as [d|r|d|d|d|d|d|u|u|u|u|u|u|a|a|y|y| |p]; cbn [show_sem_err] in E; cbn [wording]; try (apply Ht; exact E); injection E as <-; try apply Hu.
    + apply (Hd "object").
    + seek.
    + apply (Hd "predicate").
    + apply (Hd "action").
    + apply (Hd "compound task").
    + apply (Hd "method").
    + apply (Hd "parameter").
    + unfold says_arity, show_nat. split; [seek|split; number].
    + unfold says_arity, show_nat. split; [seek|split; number].
    + seek.
    + seek.
Qed.
Theorem C47_warning_wording : forall s l,
  mentions (show_warning (NoPrimitiveRefinement s l)) (": compound task " ++ s ++ " does not have a primitive refinement").
Proof. intros s l. cbn [show_warning]. seek. Qed.
Definition wording_theorems := (@C47_wording, @C47_warning_wording).

Example C47_wording_example : exists m,
  show_parsing_error (ESem (InconsistentPredicateArgType (mkTypeErr (Some "a") (Some "b") "x" 3))) = Some m
  /\ mentions m "Expected object of type 'a'" /\ mentions m "but found 'b'".
Proof. eexists. split; [reflexivity|]. split; seek. Qed.
