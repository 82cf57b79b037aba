(** Specification for the text of formulas (C85). *)
From Coq Require Import String Ascii NArith List.
From Verif Require Import Base Token Ast StrFacts SpecLex.
Import ListNotations.
Open Scope string_scope.

(** What the text leaves out: where a name stands, the types of variables, how
    a weight is represented (apart from its digits), and which connective joins
    fewer than two formulas. *)
Definition blur_symbol (s : symbol) : symbol := mkSym (sym_name s) 0%N None None.
Definition blur_pred (p : predicate) : predicate := mkPred (pred_name p) 0%N (map blur_symbol (pred_vars p)).
Definition blur_number (w : number) : number := Real (show_number w).
Definition joins {A} (l : list A) : bool := match l with _ :: _ :: _ => true | _ => false end.
Fixpoint blur (f : formula) : formula :=
  match f with
  | FEmpty => FEmpty
  | FAtom p => FAtom (blur_pred p)
  | FNot g => FNot (blur g)
  | FAnd fs => FAnd (map blur fs)
  | FOr fs => (if joins fs then FOr else FAnd) (map blur fs)
  | FXor fs => (if joins fs then FXor else FAnd) (map blur fs)
  | FImply ps qs => FImply (map blur ps) (map blur qs)
  | FExists vs g => FExists (map blur_symbol vs) (blur g)
  | FForAll vs g => FForAll (map blur_symbol vs) (blur g)
  | FWeighted w g => FWeighted (blur_number w) (blur g)
  | FEquals a b => FEquals a b
  end.

(** Names have the bytes of a word; those of predicates and of quantified
    variables are not empty. *)
Definition word (s : string) : Prop := s <> "" /\ str_all word_byte s.
Inductive worded : formula -> Prop :=
| wo_empty : worded FEmpty
| wo_atom p : word (pred_name p) -> Forall (fun v => str_all word_byte (sym_name v)) (pred_vars p) -> worded (FAtom p)
| wo_not f : worded f -> worded (FNot f)
| wo_and fs : Forall worded fs -> worded (FAnd fs)
| wo_or fs : Forall worded fs -> worded (FOr fs)
| wo_xor fs : Forall worded fs -> worded (FXor fs)
| wo_imply ps qs : Forall worded ps -> Forall worded qs -> worded (FImply ps qs)
| wo_exists vs f : Forall (fun v => word (sym_name v)) vs -> worded f -> worded (FExists vs f)
| wo_forall vs f : Forall (fun v => word (sym_name v)) vs -> worded f -> worded (FForAll vs f)
| wo_weighted w f : worded f -> worded (FWeighted w f)
| wo_equals a b : str_all word_byte a -> str_all word_byte b -> worded (FEquals a b).

(** A predicate or a quantified variable without a name (written as a lone
    '?'). *)
Inductive unnamed : formula -> Prop :=
| un_atom p : pred_name p = "" -> unnamed (FAtom p)
| un_not f : unnamed f -> unnamed (FNot f)
| un_and fs : Exists unnamed fs -> unnamed (FAnd fs)
| un_or fs : Exists unnamed fs -> unnamed (FOr fs)
| un_xor fs : Exists unnamed fs -> unnamed (FXor fs)
| un_exists vs f : In "" (map sym_name vs) \/ unnamed f -> unnamed (FExists vs f)
| un_forall vs f : In "" (map sym_name vs) \/ unnamed f -> unnamed (FForAll vs f)
| un_weighted w f : unnamed f -> unnamed (FWeighted w f).
