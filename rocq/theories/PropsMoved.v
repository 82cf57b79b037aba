(** C42, exactly: what stands before an insertion is reported on the same line,
    what stands behind it on the line moved by the inserted line breaks. *)
From Coq Require Import String Ascii NArith Bool List Lia PeanoNat.
From Verif Require Import Base Token Lexer Errors Ast Parser Semantic Tdg Api StrFacts SpecLex LexProofs3 AstRel ParserStream PropsLex
  SpecMoved LexLines SpecSim SimTop PropsSem PropsSim.
Import ListNotations.
Open Scope list_scope.

Section S.
Context `{Unicode}.
Variable he : hash_env.
Hypothesis Hhe : hash_env_ok he.

(** A domain alone: errors, warnings and metadata. *)
Theorem C42_moved_domain : forall n q w s,
  clean q -> str_last delimiter q -> Gap w ->
  let RL := moved (1 + count_nl q) (count_nl w) in
  result_sim ren_id RL (warnings_sim ren_id RL) (verify he n (q ++ s)%string None) (verify he n (q ++ w ++ s)%string None).
Proof.
  intros n q w s Hc Hl Hw RL. apply C42_verify_tokens; auto.
  - left. lia.
  - apply insert_gap_moved; auto.
  - constructor.
Qed.
Theorem C42_moved_metadata : forall n l q w s,
  clean q -> str_last delimiter q -> Gap w ->
  result_sim ren_id (moved (1 + count_nl q) (count_nl w)) eq
    (get_metadata he n l (q ++ s)%string) (get_metadata he n l (q ++ w ++ s)%string).
Proof.
  intros n l q w s Hc Hl Hw. apply C42_metadata_tokens; auto.
  - left. lia.
  - apply insert_gap_moved; auto.
Qed.

(** With two documents: lines of the other one do not move. *)
Lemma same_document (RL : N -> N -> Prop) s : (forall x, RL x x) -> same_tokens RL s s.
Proof.
  intros Hr k. induction (stream k (lex_new s)) as [|[o x] l IH]; constructor; auto.
  split; [destruct o as [t|[t lx ln]|y|]; constructor|destruct o; simpl; auto]; auto.
Qed.
Lemma item_impl (RL RL' : N -> N -> Prop) i i' : (forall x y, RL x y -> RL' x y) -> item_rel RL i i' -> item_rel RL' i i'.
Proof.
  intros Hi [Ho Hl]. split; [destruct Ho; constructor; auto|destruct (fst i); auto].
Qed.
Lemma tokens_impl (RL RL' : N -> N -> Prop) s s' : (forall x y, RL x y -> RL' x y) -> same_tokens RL s s' -> same_tokens RL' s s'.
Proof.
  intros Hi Hs n. specialize (Hs n). induction Hs; constructor; auto. eapply item_impl; eauto.
Qed.
Theorem C42_moved_pair : forall n q w s other,
  clean q -> str_last delimiter q -> Gap w ->
  let RL := fun x y => x = y \/ (1 + count_nl q <= x /\ y = x + count_nl w)%N in
  result_sim ren_id RL (warnings_sim ren_id RL)
    (verify he n (q ++ s)%string (Some other)) (verify he n (q ++ w ++ s)%string (Some other))
  /\ result_sim ren_id RL (warnings_sim ren_id RL)
    (verify he n other (Some (q ++ s)%string)) (verify he n other (Some (q ++ w ++ s)%string)).
Proof.
  intros n q w s other Hc Hl Hw RL.
  assert (same_tokens RL (q ++ s)%string (q ++ w ++ s)%string) as Hs.
  { eapply tokens_impl; [|apply insert_gap_moved; eauto]. intros x y [[_ ->]|[H1 ->]]; [left; reflexivity|right; auto]. }
  assert (same_tokens RL other other) as Ho by (apply same_document; left; reflexivity).
  split; apply C42_verify_tokens; auto; try (left; reflexivity); constructor; auto.
Qed.
End S.

Definition moved_theorems := (@C42_moved_domain, @C42_moved_metadata, @C42_moved_pair).

(** An error before and one behind the insertion: [C42_example] has one on line 3
    that was on line 1, and one that stays. *)
Example C42_moved_example :
  let q := ("(define (domain d)" ++ nl ++ "(:predicates (p) ")%string in
  let w := (nl ++ nl)%string in
  let s := "(p)))"%string in
  @verify uni0 env_id 300 (q ++ s) None = Err (ESem (DuplicatePredicate (mkDup "p" 2 2)))
  /\ @verify uni0 env_id 300 (q ++ w ++ s) None = Err (ESem (DuplicatePredicate (mkDup "p" 2 4)))
  /\ moved (1 + count_nl q) (count_nl w) 2 2 /\ moved (1 + count_nl q) (count_nl w) 2 4.
Proof.
  split; [vm_compute; reflexivity|]. split; [vm_compute; reflexivity|]. split; [left|right]; vm_compute; split; congruence.
Qed.
