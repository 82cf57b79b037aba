(** JSON export: the #[derive(Serialize)] data of the syntax tree
    (src/syntactic_analyzer/syntax_tree, lexical_analyzer/token_pos.rs and
    token_types.rs) as JSON values, following serde's default representation:
    structs are objects in field order, options are null or the value (or the
    field is omitted under skip_serializing_if), unit variants are strings,
    newtype variants [{"V": x}] and tuple variants [{"V": [x, y]}].
    The value is rendered to text as serde_json's PrettyFormatter does. *)
From Coq Require Import String Ascii NArith ZArith Bool List.
From Verif Require Import Base Token Lexer Errors Ast Parser Api.
Import ListNotations.
Open Scope string_scope.
Open Scope list_scope.

Inductive json :=
| JNull
| JStr (s : string)
| JInt (z : Z)
| JReal (literal : string)
| JArr (l : list json)
| JObj (fields : list (string * json)).

(** The text serde_json writes for the f64 that a literal denotes (external:
    str::parse::<f64> followed by ryu; "null" for an infinite value). *)
Class Floats := { f64_text : string -> string }.

(** token_pos.rs 5-8. *)
Definition j_pos (p : N) : json := JObj [("line", JInt (Z.of_N p))].

Definition j_opt {A} (f : A -> json) (o : option A) : json :=
  match o with None => JNull | Some x => f x end.

Definition j_list {A} (f : A -> json) (l : list A) : json := JArr (map f l).

(** symbol.rs 7-15 (both optional fields are skipped when absent). *)
Definition j_symbol (s : symbol) : json :=
  JObj ([("name", JStr (sym_name s)); ("name_pos", j_pos (sym_pos s))]
        ++ match sym_type s with None => [] | Some t => [("symbol_type", JStr t)] end
        ++ match sym_type_pos s with None => [] | Some p => [("type_pos", j_pos p)] end).

(** predicate.rs 9-14. *)
Definition j_predicate (p : predicate) : json :=
  JObj [("name", JStr (pred_name p)); ("name_pos", j_pos (pred_pos p));
        ("variables", j_list j_symbol (pred_vars p))].

Section Values.
Context `{Floats}.

(** token_types.rs 172-177. *)
Definition j_number (n : number) : json :=
  match n with
  | Real l => JObj [("Real", if f64_text l =? "null" then JNull else JReal (f64_text l))]
  | Integer z => JObj [("Integer", JInt z)]
  end.

(** formula.rs 9-27. *)
Fixpoint j_formula (f : formula) : json :=
  match f with
  | FEmpty => JStr "Empty"
  | FAtom p => JObj [("Atom", j_predicate p)]
  | FNot g => JObj [("Not", j_formula g)]
  | FAnd fs => JObj [("And", JArr (map j_formula fs))]
  | FOr fs => JObj [("Or", JArr (map j_formula fs))]
  | FXor fs => JObj [("Xor", JArr (map j_formula fs))]
  | FImply ps qs => JObj [("Imply", JArr [JArr (map j_formula ps); JArr (map j_formula qs)])]
  | FExists vs g => JObj [("Exists", JArr [j_list j_symbol vs; j_formula g])]
  | FForAll vs g => JObj [("ForAll", JArr [j_list j_symbol vs; j_formula g])]
  | FWeighted w g => JObj [("Weighted", JArr [j_number w; j_formula g])]
  | FEquals a b => JObj [("Equals", JArr [JStr a; JStr b])]
  end.

(** task.rs 9-14. *)
Definition j_task (t : task) : json :=
  JObj [("name", JStr (task_name t)); ("name_pos", j_pos (task_pos t));
        ("parameters", j_list j_symbol (task_params t))].

(** action.rs 10-17. *)
Definition j_action (a : action) : json :=
  JObj [("name", JStr (act_name a)); ("name_pos", j_pos (act_pos a));
        ("parameters", j_list j_symbol (act_params a));
        ("preconditions", j_opt j_formula (act_pre a));
        ("effects", j_opt j_formula (act_eff a))].

(** function.rs 6-11. *)
Definition j_func (f : func) : json :=
  JObj [("name", JStr (func_name f)); ("name_pos", j_pos (func_pos f));
        ("variables", j_list j_symbol (func_vars f))].

(** htn.rs 23-28. *)
Definition j_subtask (s : subtask) : json :=
  JObj [("id", j_opt j_symbol (sub_id s)); ("task", j_symbol (sub_task s));
        ("terms", j_list j_symbol (sub_terms s))].

(** htn.rs 31-35. *)
Definition j_constr (c : constr) : json :=
  match c with
  | CEqual a b => JObj [("Equal", JArr [JStr a; JStr b])]
  | CNotEqual a b => JObj [("NotEqual", JArr [JStr a; JStr b])]
  end.

(** htn.rs 37-41. *)
Definition j_ordering (o : ordering) : json :=
  match o with
  | Total => JStr "Total"
  | Partial l => JObj [("Partial", j_list (fun e => JArr [JStr (fst e); JStr (snd e)]) l)]
  end.

(** htn.rs 15-21. *)
Definition j_htn (h : htn) : json :=
  JObj [("subtasks", j_list j_subtask (htn_subtasks h));
        ("ordering_pos", j_opt j_pos (htn_ordering_pos h));
        ("orderings", j_ordering (htn_orderings h));
        ("constraints", j_opt (j_list j_constr) (htn_constraints h))].

(** htn.rs 9-13. *)
Definition j_init_tn (i : init_tn) : json :=
  JObj [("parameters", j_opt (j_list j_symbol) (itn_params i)); ("tn", j_htn (itn_tn i))].

(** method.rs 8-16. *)
Definition j_method (m : method) : json :=
  JObj [("name", j_symbol (m_name m)); ("task", j_symbol (m_task m));
        ("task_terms", j_list j_symbol (m_task_terms m));
        ("params", j_list j_symbol (m_params m));
        ("precondition", j_opt j_formula (m_pre m)); ("tn", j_htn (m_tn m))].

(** token_types.rs 88-98. *)
Definition j_requirement (r : requirement) : json :=
  JStr match r with
       | MethodPreconditions => "MethodPreconditions"
       | Hierarchy => "Hierarchy"
       | TypedObjects => "TypedObjects"
       | NegativePreconditions => "NegativePreconditions"
       | UniversalPreconditions => "UniversalPreconditions"
       | Equality => "Equality"
       | STRIPS => "STRIPS"
       | ProbabilisticEffects => "ProbabilisticEffects"
       end.

(** domain.rs 3-14. *)
Definition j_domain (d : domain_ast) : json :=
  JObj [("name", JStr (d_name d));
        ("types", j_opt (j_list j_symbol) (d_types d));
        ("constants", j_opt (j_list j_symbol) (d_constants d));
        ("requirements", j_list j_requirement (d_reqs d));
        ("predicates", j_list j_predicate (d_preds d));
        ("compound_tasks", j_list j_task (d_tasks d));
        ("methods", j_list j_method (d_methods d));
        ("actions", j_list j_action (d_actions d));
        ("functions", j_list j_func (d_funcs d))].

(** problem.rs 4-11. *)
Definition j_problem (p : problem_ast) : json :=
  JObj [("requirements", j_list j_requirement (p_reqs p));
        ("init_tn", j_opt j_init_tn (p_init_tn p));
        ("init_state", j_list j_predicate (p_init p));
        ("goal", j_opt j_formula (p_goal p));
        ("objects", j_list j_symbol (p_objects p))].

End Values.

(** ** Rendering: serde_json::to_string_pretty (PrettyFormatter, two blanks of
    indentation per level). *)

(** Hexadecimal digit in lower case. *)
Definition hex (n : N) : ascii := ascii_of_N (if (n <? 10)%N then 48 + n else 87 + n).

(** serde_json ser.rs: the ESCAPE table. *)
Definition escape_char (c : ascii) : string :=
  let n := N_of_ascii c in
  if (n =? 34)%N then "\"""
  else if (n =? 92)%N then "\\"
  else if (n =? 8)%N then "\b"
  else if (n =? 9)%N then "\t"
  else if (n =? 10)%N then "\n"
  else if (n =? 12)%N then "\f"
  else if (n =? 13)%N then "\r"
  else if (n <? 32)%N then "\u00" ++ String (hex (n / 16)) (String (hex (n mod 16)) "")
  else String c "".
Fixpoint escape (s : string) : string :=
  match s with
  | EmptyString => ""
  | String c s' => (escape_char c ++ escape s')%string
  end.
Definition quoted (s : string) : string := ("""" ++ escape s ++ """")%string.

(** Line break and indentation. *)
Fixpoint blanks (n : nat) : string :=
  match n with O => "" | S k => ("  " ++ blanks k)%string end.
Definition break (n : nat) : string := String newline (blanks n).

(** The text of a value nested [n] levels deep. *)
Fixpoint json_text (n : nat) (j : json) : string :=
  match j with
  | JNull => "null"
  | JStr s => quoted s
  | JInt z => show_Z z
  | JReal t => t
  | JArr [] => "[]"
  | JArr (j1 :: l) =>
    "[" ++ break (S n) ++ json_text (S n) j1
    ++ (fix more (l : list json) : string :=
          match l with
          | [] => break n ++ "]"
          | j' :: l' => "," ++ break (S n) ++ json_text (S n) j' ++ more l'
          end) l
  | JObj [] => "{}"
  | JObj ((k, j1) :: l) =>
    "{" ++ break (S n) ++ quoted k ++ ": " ++ json_text (S n) j1
    ++ (fix more (l : list (string * json)) : string :=
          match l with
          | [] => break n ++ "}"
          | (k', j') :: l' => "," ++ break (S n) ++ quoted k' ++ ": " ++ json_text (S n) j' ++ more l'
          end) l
  end%string.

Section Export.
Context `{Unicode} `{Floats}.

(** lib.rs 81-118: the value exported by HDDLAnalyzer::to_json.  [swap] is the
    iteration order of the two-entry root HashMap; AbstractSyntaxTree is
    untagged (generic.rs 3-8). *)
Definition json_value (swap : bool) (fuel : nat) (domain : string) (problem : option string)
  : outcome json :=
  obind (parse_as_domain fuel domain) (fun d =>
  match problem with
  | None => Ok (JObj [("domain", j_domain d)])
  | Some p =>
    obind (parse_as_problem fuel p) (fun past =>
    let dom := ("domain", j_domain d) in
    let prob := ("problem", j_problem past) in
    Ok (JObj (if swap then [prob; dom] else [dom; prob])))
  end).

(** lib.rs 81-118: HDDLAnalyzer::to_json (rendering cannot fail). *)
Definition to_json (swap : bool) (fuel : nat) (domain : string) (problem : option string)
  : outcome string :=
  obind (json_value swap fuel domain problem) (fun j => Ok (json_text 0 j)).

End Export.
