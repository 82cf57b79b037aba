(** Specification for the depth of recursion (C68), in terms of documents and
    formulas only. *)
From Coq Require Import String Ascii List Arith.
From Verif Require Import Base Token Ast StrFacts SpecLex.
Import ListNotations.
Open Scope string_scope.

(** The number of opening parentheses in a text. *)
Fixpoint opens (s : string) : nat :=
  match s with
  | EmptyString => 0
  | String c s' => (if Ascii.eqb c "(" then 1 else 0) + opens s'
  end.

(** [nested f k]: [k] formulas of the text of [f] lie in one another.  A list
    of formulas has an (empty) formula at its end, the closing parenthesis;
    only the branches of a probabilistic effect end without one.  A probability
    is not a formula of its own. *)
Inductive nested : formula -> nat -> Prop :=
| ne_empty : nested FEmpty 1
| ne_atom p : nested (FAtom p) 1
| ne_equals x y : nested (FEquals x y) 1
| ne_not f k : nested f k -> nested (FNot f) (S k)
| ne_forall vs f k : nested f k -> nested (FForAll vs f) (S k)
| ne_exists vs f k : nested f k -> nested (FExists vs f) (S k)
| ne_and fs ks : Forall2 nested fs ks -> nested (FAnd fs) (S (list_max (1 :: ks)))
| ne_or fs ks : Forall2 nested fs ks -> nested (FOr fs) (S (list_max (1 :: ks)))
| ne_xor fs ks : Forall2 nested fs ks -> nested (FXor fs) (S (list_max (1 :: ks)))
| ne_branches bs ks : Forall2 (fun b k => nested (snd b) k) bs ks ->
    nested (FAnd (map (fun b => FWeighted (fst b) (snd b)) bs)) (S (list_max ks)).

(** The formulas of a document. *)
Definition opt_list {A} (o : option A) : list A := match o with Some a => [a] | None => [] end.
Definition formulas_of (a : ast) : list formula :=
  match a with
  | ADomain d =>
    flat_map (fun x => opt_list (act_pre x) ++ opt_list (act_eff x))%list (d_actions d)
    ++ flat_map (fun m => opt_list (m_pre m)) (d_methods d)
  | AProblem p => opt_list (p_goal p)
  end%list.

(** The deepest nesting among the formulas of a document. *)
Definition deepest (fs : list formula) (k : nat) : Prop :=
  (forall f, In f fs -> exists j, nested f j /\ j <= k)
  /\ (k = 0 \/ exists f, In f fs /\ nested f k).

(** The height of a formula as a tree. *)
Fixpoint height (f : formula) : nat :=
  match f with
  | FEmpty | FAtom _ | FEquals _ _ => 1
  | FNot g | FForAll _ g | FExists _ g | FWeighted _ g => S (height g)
  | FAnd fs | FOr fs | FXor fs => S (list_max (map height fs))
  | FImply ps qs => S (Nat.max (list_max (map height ps)) (list_max (map height qs)))
  end.

(** A gap with a number of comments. *)
Inductive Comments : nat -> string -> Prop :=
| cm_nil : Comments 0 ""
| cm_ws c k g : ws c -> Comments k g -> Comments k (String c g)
| cm_comment text k g :
    ~ str_in "010" text -> Comments k g -> Comments (S k) (String ";" (text ++ String "010" g)).
