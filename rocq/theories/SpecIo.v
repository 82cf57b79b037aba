(** Specifications for the JSON export, the language server and the command
    line (C31-C34, C41). *)
From Coq Require Import String Ascii NArith ZArith Bool List.
From Verif Require Import Base Token Lexer Errors Ast AstLines StrFacts Json Lsp.
Import ListNotations.
Open Scope list_scope.

(** ** JSON *)
(** A character of a floating point number in JSON. *)
Definition num_char (c : ascii) : Prop :=
  is_digit c = true \/ In c ["."; "e"; "E"; "+"; "-"]%char.
(** What serde_json writes for a finite f64: it is never mistaken for an
    integer. *)
Definition real_text (t : string) : Prop :=
  str_all num_char t /\ (str_in "." t \/ str_in "e" t \/ str_in "E" t).
Definition floats_ok (F : Floats) : Prop :=
  forall l, f64_text l = "null"%string \/ real_text (f64_text l).

(** Trees compared up to the spelling of real numbers: every literal is
    replaced by the text of its value. *)
Section Reals.
Context `{Floats}.
Definition number_value (n : number) : number :=
  match n with Real l => Real (f64_text l) | Integer z => Integer z end.
Fixpoint formula_value (f : formula) : formula :=
  match f with
  | FEmpty => FEmpty
  | FAtom p => FAtom p
  | FNot g => FNot (formula_value g)
  | FAnd fs => FAnd (map formula_value fs)
  | FOr fs => FOr (map formula_value fs)
  | FXor fs => FXor (map formula_value fs)
  | FImply ps qs => FImply (map formula_value ps) (map formula_value qs)
  | FExists vs g => FExists vs (formula_value g)
  | FForAll vs g => FForAll vs (formula_value g)
  | FWeighted w g => FWeighted (number_value w) (formula_value g)
  | FEquals a b => FEquals a b
  end.
Definition action_value (a : action) : action :=
  mkAction (act_name a) (act_pos a) (act_params a)
           (option_map formula_value (act_pre a)) (option_map formula_value (act_eff a)).
Definition method_value (m : method) : method :=
  mkMethod (m_name m) (m_task m) (m_task_terms m) (m_params m)
           (option_map formula_value (m_pre m)) (m_tn m).
Definition domain_value (d : domain_ast) : domain_ast :=
  mkDomain (d_name d) (d_types d) (d_constants d) (d_reqs d) (d_preds d) (d_tasks d)
           (map method_value (d_methods d)) (map action_value (d_actions d)) (d_funcs d).
Definition problem_value (p : problem_ast) : problem_ast :=
  mkProblem (p_reqs p) (p_init_tn p) (p_init p) (option_map formula_value (p_goal p)) (p_objects p).
End Reals.

(** ** Diagnostics *)
(** The diagnostic shows the error: its text, and the whole line if the error
    has a line. *)
Definition shows (e : parsing_error) (d : diagnostic) : Prop :=
  show_parsing_error e = Some (dg_message d)
  /\ match err_lines e with
     | [l] => dg_start d + 1 = l /\ dg_end d = l
     | _ => dg_start d = 0
     end%N
  /\ dg_severity d = match e with ESem (DuplicateRequirement _) => SevInformation | _ => SevError end.
(** The error names two places. *)
Definition two_places (e : parsing_error) : Prop := exists l1 l2, err_lines e = [l1; l2].

(** ** Histories of notifications *)
(** The text an event brings for a document. *)
Definition brings (uri : string) (e : event) : option string :=
  match e with
  | DidOpen u text => if String.eqb u uri then Some text else None
  | DidSave u (Some text) _ => if String.eqb u uri then Some text else None
  | DidSave u None (Some text) => if String.eqb u uri then Some text else None
  | DidChange u (text :: _) => if String.eqb u uri then Some text else None
  | _ => None
  end.
(** [text] is the latest text of the document. *)
Definition latest (uri : string) (es : list event) (text : string) : Prop :=
  exists before e after, es = before ++ e :: after
    /\ brings uri e = Some text /\ Forall (fun e' => brings uri e' = None) after.
Definition never_sent (uri : string) (es : list event) : Prop :=
  Forall (fun e => brings uri e = None) es.

(** ** Lines of the command line tool *)
(** A label in brackets, in an ANSI colour. *)
Definition label (colour word : string) : string :=
  (String (ascii_of_N 27) ("[" ++ colour ++ "m[" ++ word ++ "]") ++ String (ascii_of_N 27) "[0m")%string.
Definition success_text : string := label "32" "Ok".
Definition error_text (message : string) : string := (label "31" "Error" ++ " " ++ message)%string.
Definition warning_text (w : warning) : string := (label "33" "Warning" ++ " " ++ show_warning w)%string.
