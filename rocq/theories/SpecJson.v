(** JSON texts (RFC 8259) and the documented shape of the export, independent of
    how the export is produced: which texts denote a value, and which value
    describes a syntax tree, field by field. *)
From Coq Require Import String Ascii NArith ZArith Bool List.
From Verif Require Import Base Token Ast StrFacts Json.
Import ListNotations.
Open Scope list_scope.
Open Scope string_scope.

(** ** Texts *)
(** RFC 8259 section 2. *)
Definition ws_char (c : ascii) : Prop := In c [" "; "009"; "010"; "013"]%char.
Definition ws (s : string) : Prop := str_all ws_char s.

(** Section 7.  Bytes of multi-byte characters stand for themselves; escapes of
    the form \uXXXX are only described for ASCII characters. *)
Inductive hex_value : ascii -> N -> Prop :=
| hv_digit n : (n < 10)%N -> hex_value (ascii_of_N (48 + n)) n
| hv_lower n : (n < 6)%N -> hex_value (ascii_of_N (97 + n)) (10 + n)
| hv_upper n : (n < 6)%N -> hex_value (ascii_of_N (65 + n)) (10 + n).
Inductive char_text : string -> ascii -> Prop :=
| ct_plain c : (32 <= N_of_ascii c)%N -> c <> """"%char -> c <> "\"%char -> char_text (String c "") c
| ct_quote : char_text "\""" """"
| ct_backslash : char_text "\\" "\"
| ct_slash : char_text "\/" "/"
| ct_b : char_text "\b" "008"
| ct_f : char_text "\f" "012"
| ct_n : char_text "\n" "010"
| ct_r : char_text "\r" "013"
| ct_t : char_text "\t" "009"
| ct_hex a b x y : hex_value a x -> hex_value b y -> (16 * x + y < 128)%N ->
    char_text ("\u00" ++ String a (String b "")) (ascii_of_N (16 * x + y)).
Inductive chars_text : string -> string -> Prop :=
| cs_nil : chars_text "" ""
| cs_cons t c u s : char_text t c -> chars_text u s -> chars_text (t ++ u) (String c s).
Definition string_text (t s : string) : Prop := exists u, chars_text u s /\ t = """" ++ u ++ """".

(** Section 6. *)
Definition digits (s : string) : Prop := str_all (fun c => is_digit c = true) s /\ s <> "".
Definition natural (s : string) : Prop := digits s /\ (s = "0" \/ ~ starts_with "0" s).
Inductive integer_text : string -> Z -> Prop :=
| in_natural s : natural s -> integer_text s (decimal_value s)
| in_negative s : natural s -> integer_text (String "-" s) (- decimal_value s).
Definition fraction (s : string) : Prop := exists d, digits d /\ s = String "." d.
Definition exponent (s : string) : Prop :=
  exists e sign d, In e ["e"; "E"] /\ In sign [""; "+"; "-"] /\ digits d /\ s = e ++ sign ++ d.
(** A number with a fraction or an exponent. *)
Definition real_literal (t : string) : Prop :=
  exists i z f e, integer_text i z /\ t = i ++ f ++ e
    /\ (fraction f /\ (e = "" \/ exponent e) \/ f = "" /\ exponent e).

(** Sections 3-5: [denotes t j], the text [t] denotes the value [j]. *)
Inductive denotes : string -> json -> Prop :=
| dn_null : denotes "null" JNull
| dn_string t s : string_text t s -> denotes t (JStr s)
| dn_integer t z : integer_text t z -> denotes t (JInt z)
| dn_real t : real_literal t -> denotes t (JReal t)
| dn_no_elements w : ws w -> denotes ("[" ++ w ++ "]") (JArr [])
| dn_array t js : elements t js -> denotes ("[" ++ t ++ "]") (JArr js)
| dn_no_members w : ws w -> denotes ("{" ++ w ++ "}") (JObj [])
| dn_object t fs : members t fs -> denotes ("{" ++ t ++ "}") (JObj fs)
with elements : string -> list json -> Prop :=
| el_last w1 t w2 j : ws w1 -> denotes t j -> ws w2 -> elements (w1 ++ t ++ w2) [j]
| el_more w1 t w2 j u js : ws w1 -> denotes t j -> ws w2 -> elements u js ->
    elements (w1 ++ t ++ w2 ++ "," ++ u) (j :: js)
with members : string -> list (string * json) -> Prop :=
| mb_last w1 k key w2 w3 t w4 j :
    ws w1 -> string_text k key -> ws w2 -> ws w3 -> denotes t j -> ws w4 ->
    members (w1 ++ k ++ w2 ++ ":" ++ w3 ++ t ++ w4) [(key, j)]
| mb_more w1 k key w2 w3 t w4 j u fs :
    ws w1 -> string_text k key -> ws w2 -> ws w3 -> denotes t j -> ws w4 -> members u fs ->
    members (w1 ++ k ++ w2 ++ ":" ++ w3 ++ t ++ w4 ++ "," ++ u) ((key, j) :: fs).

(** ** Shapes *)
(** The value of a field, wherever it stands. *)
Definition has (j : json) (k : string) (v : json) : Prop :=
  exists fs, j = JObj fs /\ NoDup (map fst fs) /\ In (k, v) fs.
Definition lacks (j : json) (k : string) : Prop := exists fs, j = JObj fs /\ ~ In k (map fst fs).
Definition field {A} (R : json -> A -> Prop) (j : json) (k : string) (x : A) : Prop := exists v, has j k v /\ R v x.
(** A field that is left out when there is nothing to say. *)
Definition skipped {A} (R : json -> A -> Prop) (j : json) (k : string) (o : option A) : Prop :=
  match o with None => lacks j k | Some x => field R j k x end.
Definition nullable {A} (R : json -> A -> Prop) (j : json) (o : option A) : Prop :=
  match o with None => j = JNull | Some x => R j x end.
Definition array {A} (R : json -> A -> Prop) (j : json) (l : list A) : Prop :=
  exists js, j = JArr js /\ Forall2 R js l.
Definition text (j : json) (s : string) : Prop := j = JStr s.

Definition is_position (j : json) (p : N) : Prop := has j "line" (JInt (Z.of_N p)).
Definition is_symbol (j : json) (s : symbol) : Prop :=
  field text j "name" (sym_name s) /\ field is_position j "name_pos" (sym_pos s)
  /\ skipped text j "symbol_type" (sym_type s) /\ skipped is_position j "type_pos" (sym_type_pos s).
Definition is_predicate (j : json) (p : predicate) : Prop :=
  field text j "name" (pred_name p) /\ field is_position j "name_pos" (pred_pos p)
  /\ field (array is_symbol) j "variables" (pred_vars p).
Definition is_task (j : json) (t : task) : Prop :=
  field text j "name" (task_name t) /\ field is_position j "name_pos" (task_pos t)
  /\ field (array is_symbol) j "parameters" (task_params t).
Definition is_function (j : json) (f : func) : Prop :=
  field text j "name" (func_name f) /\ field is_position j "name_pos" (func_pos f)
  /\ field (array is_symbol) j "variables" (func_vars f).
Definition is_subtask (j : json) (s : subtask) : Prop :=
  field (nullable is_symbol) j "id" (sub_id s) /\ field is_symbol j "task" (sub_task s)
  /\ field (array is_symbol) j "terms" (sub_terms s).

(** Variants with data are objects with one field. *)
Definition tagged (k : string) (v : json) : json := JObj [(k, v)].
Definition pair_of (a b : string) : json := JArr [JStr a; JStr b].
Inductive is_constraint : json -> constr -> Prop :=
| ic_equal a b : is_constraint (tagged "Equal" (pair_of a b)) (CEqual a b)
| ic_different a b : is_constraint (tagged "NotEqual" (pair_of a b)) (CNotEqual a b).
Inductive is_ordering : json -> ordering -> Prop :=
| io_total : is_ordering (JStr "Total") Total
| io_partial l : is_ordering (tagged "Partial" (JArr (map (fun e => pair_of (fst e) (snd e)) l))) (Partial l).
Inductive is_requirement : json -> requirement -> Prop :=
| ir1 : is_requirement (JStr "MethodPreconditions") MethodPreconditions
| ir2 : is_requirement (JStr "Hierarchy") Hierarchy
| ir3 : is_requirement (JStr "TypedObjects") TypedObjects
| ir4 : is_requirement (JStr "NegativePreconditions") NegativePreconditions
| ir5 : is_requirement (JStr "UniversalPreconditions") UniversalPreconditions
| ir6 : is_requirement (JStr "Equality") Equality
| ir7 : is_requirement (JStr "STRIPS") STRIPS
| ir8 : is_requirement (JStr "ProbabilisticEffects") ProbabilisticEffects.
Definition is_network (j : json) (h : htn) : Prop :=
  field (array is_subtask) j "subtasks" (htn_subtasks h)
  /\ field (nullable is_position) j "ordering_pos" (htn_ordering_pos h)
  /\ field is_ordering j "orderings" (htn_orderings h)
  /\ field (nullable (array is_constraint)) j "constraints" (htn_constraints h).
Definition is_init_network (j : json) (i : init_tn) : Prop :=
  field (nullable (array is_symbol)) j "parameters" (itn_params i) /\ field is_network j "tn" (itn_tn i).

Section Reals.
Context `{Floats}.

(** A real is written as its value; infinite values are null. *)
Inductive is_number : json -> number -> Prop :=
| nu_integer z : is_number (tagged "Integer" (JInt z)) (Integer z)
| nu_real l : f64_text l <> "null" -> is_number (tagged "Real" (JReal (f64_text l))) (Real l)
| nu_infinite l : f64_text l = "null" -> is_number (tagged "Real" JNull) (Real l).

Inductive is_formula : json -> formula -> Prop :=
| fo_empty : is_formula (JStr "Empty") FEmpty
| fo_atom j p : is_predicate j p -> is_formula (tagged "Atom" j) (FAtom p)
| fo_not j g : is_formula j g -> is_formula (tagged "Not" j) (FNot g)
| fo_and js gs : are_formulas js gs -> is_formula (tagged "And" (JArr js)) (FAnd gs)
| fo_or js gs : are_formulas js gs -> is_formula (tagged "Or" (JArr js)) (FOr gs)
| fo_xor js gs : are_formulas js gs -> is_formula (tagged "Xor" (JArr js)) (FXor gs)
| fo_imply js gs ks hs : are_formulas js gs -> are_formulas ks hs ->
    is_formula (tagged "Imply" (JArr [JArr js; JArr ks])) (FImply gs hs)
| fo_exists v vs j g : array is_symbol v vs -> is_formula j g -> is_formula (tagged "Exists" (JArr [v; j])) (FExists vs g)
| fo_forall v vs j g : array is_symbol v vs -> is_formula j g -> is_formula (tagged "ForAll" (JArr [v; j])) (FForAll vs g)
| fo_weighted v w j g : is_number v w -> is_formula j g -> is_formula (tagged "Weighted" (JArr [v; j])) (FWeighted w g)
| fo_equals a b : is_formula (tagged "Equals" (pair_of a b)) (FEquals a b)
with are_formulas : list json -> list formula -> Prop :=
| fs_nil : are_formulas [] []
| fs_cons j g js gs : is_formula j g -> are_formulas js gs -> are_formulas (j :: js) (g :: gs).

Definition is_action (j : json) (a : action) : Prop :=
  field text j "name" (act_name a) /\ field is_position j "name_pos" (act_pos a)
  /\ field (array is_symbol) j "parameters" (act_params a)
  /\ field (nullable is_formula) j "preconditions" (act_pre a)
  /\ field (nullable is_formula) j "effects" (act_eff a).
Definition is_method (j : json) (m : method) : Prop :=
  field is_symbol j "name" (m_name m) /\ field is_symbol j "task" (m_task m)
  /\ field (array is_symbol) j "task_terms" (m_task_terms m)
  /\ field (array is_symbol) j "params" (m_params m)
  /\ field (nullable is_formula) j "precondition" (m_pre m)
  /\ field is_network j "tn" (m_tn m).
Definition is_domain (j : json) (d : domain_ast) : Prop :=
  field text j "name" (d_name d)
  /\ field (nullable (array is_symbol)) j "types" (d_types d)
  /\ field (nullable (array is_symbol)) j "constants" (d_constants d)
  /\ field (array is_requirement) j "requirements" (d_reqs d)
  /\ field (array is_predicate) j "predicates" (d_preds d)
  /\ field (array is_task) j "compound_tasks" (d_tasks d)
  /\ field (array is_method) j "methods" (d_methods d)
  /\ field (array is_action) j "actions" (d_actions d)
  /\ field (array is_function) j "functions" (d_funcs d).
Definition is_problem (j : json) (p : problem_ast) : Prop :=
  field (array is_requirement) j "requirements" (p_reqs p)
  /\ field (nullable is_init_network) j "init_tn" (p_init_tn p)
  /\ field (array is_predicate) j "init_state" (p_init p)
  /\ field (nullable is_formula) j "goal" (p_goal p)
  /\ field (array is_symbol) j "objects" (p_objects p).
(** The exported document. *)
Definition is_export (j : json) (d : domain_ast) (p : option problem_ast) : Prop :=
  field is_domain j "domain" d /\ skipped is_problem j "problem" p.
End Reals.
