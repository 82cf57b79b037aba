(** Specification for C84: the names a syntax error quotes. *)
From Coq Require Import String NArith List.
From Verif Require Import Base Token Lexer LexProofs2.
Import ListNotations.
Open Scope string_scope.

(** What a syntax error can say it expected without quoting a name. *)
Definition fixed_texts : list string :=
  ["start of the file with '('"; "keyword 'define'"; "'(' after keyword 'define'"; "either keyword 'domain' or 'problem'";
   "domain name"; "problem name"; "')'"; "'('"; "keyword 'domain'"; "a keyword"; "a keyword for block definition";
   "either a requirement or a ')'"; "an identifier"; "The type of objects"; "a predicate name"; "predicate definition";
   "a function name"; "function definition"; "a (potentially empty) boolean formula definition"; "a boolean formula";
   "closing the not operator with ')'"; "left hand side of the equality"; "right hand side of the equality";
   "equality's closing parenthesis"; "'(' after forall keyword"; "')' to close the forall statement";
   "'(' after existential quantification keyword"; "')' to close the existential statement";
   "a probability or ')' to close the probabilistic block"; "a formula following the probability";
   "a task/action name (identifier)"; "'(' after :parameters"; "method name"; "'(' after keyword :parameters"; "keyword :task";
   "'(' after keyword :task"; "expected the definition of the initial task network"; "'(' afer keyword :parameters";
   ":subtasks or :ordered-subtasks keyword"; "closing ')' after task network definition";
   "the (potentially empty) ordering constraints of the task network"; "subtask declarations"; "task id"; "subtask definition";
   "either a ')' or an identifier"; "ordering constraints"; "expected a task identifier";
   "character '<' to start an ordering constraint"; "task identifier"; "constraint declerations"; "a constraint definition";
   "either an equalilty or non-equality constraint"; "'(' after keyword 'not'"; "equality keyword '='"; "a task identifier";
   ") to close the inequality constraint"; ") to close the equality constraint"].
(** What it can say it expected, quoting the name [x]. *)
Definition quoting_texts (x : string) : list string :=
  ["the block of the definition of problem '" ++ x ++ "' is not closed with ')'";
   "either ')' to close the definition of " ++ x ++ ", or '(' to start defining new components";
   "a (potentially empty) list of parameters after defininig " ++ x; "')' after definition of " ++ x;
   "(potentially empty) preconditions of " ++ x; "(potentially empty) effects of " ++ x;
   "closing the scope of " ++ x ++ " using ')'"; "The parameters of method " ++ x ++ " ";
   "The task that method " ++ x ++ " decomposes"; "Either preconditions for " ++ x ++ " or its decomposition";
   "a subtask name for " ++ x ++ "!=..."; "')' to close the block of " ++ x; "either a term for " ++ x ++ ", or ')'";
   "another task id after " ++ x; "the task ids that come after " ++ x; "right hand side of " ++ x ++ "!=...";
   "right hand side of " ++ x ++ "=..."].

Section Spec.
Context `{Unicode}.
(** The tokenizer finds the name [x] in the document on line [k] or above. *)
Definition read_by (program : string) (k : N) (x : string) : Prop :=
  exists ts l st, Reads (lex_new program) ts st /\ In (TIdent x, l) ts /\ (l <= k)%N.
End Spec.
