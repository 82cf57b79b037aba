(** How a formula is shown ([Display] for [Formula]).  The parser shows the
    effects of every action it reads (action_parser.rs 33) and throws the text
    away. *)
From Coq Require Import String Ascii List.
From Verif Require Import Base Token Ast Stack.
Import ListNotations.
Open Scope string_scope.

(** The characters of the text, in UTF-8. *)
Definition sym_empty : string := String "226" (String "136" (String "133" "")).
Definition sym_not : string := String "194" (String "172" "").
Definition sym_exists : string := String "226" (String "136" (String "131" "")).
Definition sym_forall : string := String "226" (String "136" (String "128" "")).
Definition and_sep : string := String " " (String "226" (String "136" (String "167" (String " " "")))).
Definition or_sep : string := String " " (String "226" (String "136" (String "168" (String " " "")))).
Definition xor_sep : string := String " " (String "226" (String "138" (String "149" (String " " "")))).
Definition imply_sep : string := String " " (String "226" (String "135" (String "146" (String " " "")))).

(** nodes/predicate.rs 47-58. *)
Fixpoint vars_text (vs : list symbol) : string :=
  match vs with
  | [] => ""
  | v :: vs' => sym_name v ++ String "," (vars_text vs')
  end.
Definition pred_text (p : predicate) : string := pred_name p ++ String "(" (vars_text (pred_vars p) ++ String ")" "").

(** nodes/formula.rs 64-101; [number_text] shows a weight. *)
Fixpoint formula_text_with (number_text : number -> string) (f : formula) : string :=
  let show := formula_text_with number_text in
  match f with
  | FEmpty => sym_empty
  | FAtom p => pred_text p
  | FNot g => sym_not ++ String "(" (show g ++ String ")" "")
  | FAnd fs => String "(" (String.concat and_sep (map show fs) ++ String ")" "")
  | FOr fs => String "(" (String.concat or_sep (map show fs) ++ String ")" "")
  | FXor fs => String "(" (String.concat xor_sep (map show fs) ++ String ")" "")
  | FImply ps qs =>
    String "(" (String.concat and_sep (map show ps) ++ String ")" (imply_sep ++
    String "(" (String.concat and_sep (map show qs) ++ String ")" "")))
  | FExists vs g => sym_exists ++ String.concat ", " (map sym_name vs) ++ ": " ++ show g
  | FForAll vs g => sym_forall ++ String.concat ", " (map sym_name vs) ++ ": " ++ show g
  | FWeighted w g => "weight: " ++ number_text w ++ ", formula: " ++ show g
  | FEquals a b => a ++ " = " ++ b
  end.
Definition formula_text : formula -> string := formula_text_with show_number.

(** The same with at most [d] calls of [fmt] open at a time, as in Stack.v. *)
Fixpoint each_text (show : formula -> stacked string) (fs : list formula) : stacked (list string) :=
  match fs with
  | [] => Fits []
  | f :: fs' => match show f, each_text show fs' with Fits s, Fits l => Fits (s :: l) | _, _ => Overflow end
  end.
Definition and_then {A B} (k : A -> B) (x : stacked A) : stacked B :=
  match x with Fits a => Fits (k a) | Overflow => Overflow end.
Fixpoint formula_text_in (d : nat) (f : formula) : stacked string :=
  match d with
  | O => Overflow
  | S d' =>
    let show := formula_text_in d' in
    match f with
    | FEmpty | FAtom _ | FEquals _ _ => Fits (formula_text f)
    | FNot g => and_then (fun s => sym_not ++ String "(" (s ++ String ")" "")) (show g)
    | FAnd fs => and_then (fun l => String "(" (String.concat and_sep l ++ String ")" "")) (each_text show fs)
    | FOr fs => and_then (fun l => String "(" (String.concat or_sep l ++ String ")" "")) (each_text show fs)
    | FXor fs => and_then (fun l => String "(" (String.concat xor_sep l ++ String ")" "")) (each_text show fs)
    | FImply ps qs =>
      match each_text show ps, each_text show qs with
      | Fits l, Fits m => Fits (String "(" (String.concat and_sep l ++ String ")" (imply_sep ++
                                String "(" (String.concat and_sep m ++ String ")" ""))))
      | _, _ => Overflow
      end
    | FExists vs g => and_then (fun s => sym_exists ++ String.concat ", " (map sym_name vs) ++ ": " ++ s) (show g)
    | FForAll vs g => and_then (fun s => sym_forall ++ String.concat ", " (map sym_name vs) ++ ": " ++ s) (show g)
    | FWeighted w g => and_then (fun s => "weight: " ++ show_number w ++ ", formula: " ++ s) (show g)
    end
  end.
