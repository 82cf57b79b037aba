(** Similarity of syntax trees: equal up to line numbers, corresponding line
    numbers being related by [RL].  The relation also fixes the structural
    invariants that later phases rely on: a type position is present exactly
    when a type is, no implication node occurs, no empty formula is a member
    of a connective, and a non-empty partial order has a position. *)
From Coq Require Import String Ascii NArith ZArith Bool List.
From Verif Require Import Base Token Lexer Errors Ast.
Import ListNotations.
Open Scope list_scope.

Section Rel.
Variable RL : N -> N -> Prop.

Inductive opt_rel {A B} (R : A -> B -> Prop) : option A -> option B -> Prop :=
| or_none : opt_rel R None None
| or_some a b : R a b -> opt_rel R (Some a) (Some b).

(** Symbols. *)
Inductive sym_rel : symbol -> symbol -> Prop :=
| sr_plain n p p' : RL p p' -> sym_rel (mkSym n p None None) (mkSym n p' None None)
| sr_typed n p p' t q q' : RL p p' -> RL q q' ->
    sym_rel (mkSym n p (Some t) (Some q)) (mkSym n p' (Some t) (Some q')).

Definition syms_rel := Forall2 sym_rel.

(** Symbols without a type. *)
Inductive plain_rel : symbol -> symbol -> Prop :=
| plr n p p' : RL p p' -> plain_rel (mkSym n p None None) (mkSym n p' None None).

Inductive pred_rel : predicate -> predicate -> Prop :=
| pr n p p' l l' : RL p p' -> syms_rel l l' -> pred_rel (mkPred n p l) (mkPred n p' l').

Inductive func_rel : func -> func -> Prop :=
| fr n p p' l l' : RL p p' -> syms_rel l l' -> func_rel (mkFunc n p l) (mkFunc n p' l').

Inductive task_rel : task -> task -> Prop :=
| tr n p p' l l' : RL p p' -> syms_rel l l' -> task_rel (mkTask n p l) (mkTask n p' l').

(** Formulas. *)
Inductive formula_rel : formula -> formula -> Prop :=
| fo_empty : formula_rel FEmpty FEmpty
| fo_atom p p' : pred_rel p p' -> formula_rel (FAtom p) (FAtom p')
| fo_not f f' : formula_rel f f' -> formula_rel (FNot f) (FNot f')
| fo_and l l' : formulas_rel l l' -> formula_rel (FAnd l) (FAnd l')
| fo_or l l' : formulas_rel l l' -> formula_rel (FOr l) (FOr l')
| fo_xor l l' : formulas_rel l l' -> formula_rel (FXor l) (FXor l')
| fo_exists v v' f f' : syms_rel v v' -> formula_rel f f' -> formula_rel (FExists v f) (FExists v' f')
| fo_forall v v' f f' : syms_rel v v' -> formula_rel f f' -> formula_rel (FForAll v f) (FForAll v' f')
| fo_weighted w f f' : formula_rel f f' -> f <> FEmpty -> formula_rel (FWeighted w f) (FWeighted w f')
| fo_equals a b : formula_rel (FEquals a b) (FEquals a b)
with formulas_rel : list formula -> list formula -> Prop :=
| fos_nil : formulas_rel [] []
| fos_cons f f' l l' : formula_rel f f' -> f <> FEmpty -> formulas_rel l l' ->
    formulas_rel (f :: l) (f' :: l').

Inductive action_rel : action -> action -> Prop :=
| ar n p p' l l' pre pre' eff eff' :
    RL p p' -> syms_rel l l' -> opt_rel formula_rel pre pre' -> opt_rel formula_rel eff eff' ->
    action_rel (mkAction n p l pre eff) (mkAction n p' l' pre' eff').

Inductive subtask_rel : subtask -> subtask -> Prop :=
| su i i' t t' l l' :
    opt_rel plain_rel i i' -> plain_rel t t' -> Forall2 plain_rel l l' ->
    subtask_rel (mkSub i t l) (mkSub i' t' l').

(** Networks: a total order has no position, a non-empty partial order has one. *)
Inductive htn_rel : htn -> htn -> Prop :=
| hr_total s s' c : Forall2 subtask_rel s s' -> htn_rel (mkHtn s None Total c) (mkHtn s' None Total c)
| hr_partial s s' o o' l c :
    Forall2 subtask_rel s s' -> opt_rel RL o o' -> (o = None -> l = []) ->
    htn_rel (mkHtn s o (Partial l) c) (mkHtn s' o' (Partial l) c).

Inductive init_rel : init_tn -> init_tn -> Prop :=
| ir p p' t t' : opt_rel syms_rel p p' -> htn_rel t t' -> init_rel (mkInit p t) (mkInit p' t').

Inductive method_rel : method -> method -> Prop :=
| mr n n' t t' l l' p p' pre pre' tn tn' :
    plain_rel n n' -> plain_rel t t' -> syms_rel l l' -> syms_rel p p' ->
    opt_rel formula_rel pre pre' -> htn_rel tn tn' ->
    method_rel (mkMethod n t l p pre tn) (mkMethod n' t' l' p' pre' tn').

Inductive domain_rel : domain_ast -> domain_ast -> Prop :=
| dr n ty ty' c c' r p p' t t' m m' a a' f f' :
    opt_rel syms_rel ty ty' -> opt_rel syms_rel c c' -> Forall2 pred_rel p p' ->
    Forall2 task_rel t t' -> Forall2 method_rel m m' -> Forall2 action_rel a a' ->
    Forall2 func_rel f f' ->
    domain_rel (mkDomain n ty c r p t m a f) (mkDomain n ty' c' r p' t' m' a' f').

Inductive problem_rel : problem_ast -> problem_ast -> Prop :=
| prr r tn tn' i i' g g' o o' :
    opt_rel init_rel tn tn' -> Forall2 pred_rel i i' -> opt_rel formula_rel g g' ->
    syms_rel o o' ->
    problem_rel (mkProblem r tn i g o) (mkProblem r tn' i' g' o').

Inductive ast_rel : ast -> ast -> Prop :=
| asr_domain d d' : domain_rel d d' -> ast_rel (ADomain d) (ADomain d')
| asr_problem p p' : problem_rel p p' -> ast_rel (AProblem p) (AProblem p').

(** Parser errors: lexical and syntactic, never semantic. *)
Inductive err_rel : parsing_error -> parsing_error -> Prop :=
| er_lex t l p p' : RL p p' -> err_rel (ELex (mkLexErr t l p)) (ELex (mkLexErr t l p'))
| er_syn x t p p' : RL p p' -> err_rel (ESyn (mkSynErr x t p)) (ESyn (mkSynErr x t p')).

End Rel.

Scheme formula_rel_mut := Induction for formula_rel Sort Prop
  with formulas_rel_mut := Induction for formulas_rel Sort Prop.
