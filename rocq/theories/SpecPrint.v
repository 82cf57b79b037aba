(** Canonical form of syntax trees: the trees a document can denote
    ([wf_ast]), the tokens of their canonical text ([ast_tokens]) and the tree
    with every position moved to one line ([ast_at]). *)
From Coq Require Import String Ascii NArith ZArith Bool List.
From Verif Require Import Base Token Ast SpecLex.
Import ListNotations.
Open Scope list_scope.

(** ** Trees a document can denote *)

Definition is_untyped (s : symbol) : Prop := sym_type s = None /\ sym_type_pos s = None.
Definition is_typed (s : symbol) : Prop := sym_type s <> None /\ sym_type_pos s <> None.

(** Typed symbols first: in "a b - t" both are of type t. *)
Definition wf_args (l : list symbol) : Prop :=
  exists a b, l = a ++ b /\ Forall is_typed a /\ Forall is_untyped b.

(** Formulas: no implication, no empty member, weights exactly on the branches
    of a probabilistic effect. *)
Fixpoint wf_formula (f : formula) : Prop :=
  let members := (fix members fs := match fs with
                  | [] => True
                  | g :: r => wf_formula g /\ g <> FEmpty /\ members r end) in
  let branches := (fix branches fs := match fs with
                  | [] => True
                  | FWeighted _ g :: r => wf_formula g /\ g <> FEmpty /\ branches r
                  | _ :: _ => False end) in
  match f with
  | FEmpty => True
  | FAtom p => wf_args (pred_vars p)
  | FNot g => wf_formula g
  | FAnd fs => members fs \/ (fs <> [] /\ branches fs)
  | FOr fs | FXor fs => members fs
  | FImply _ _ => False
  | FExists v g | FForAll v g => wf_args v /\ wf_formula g
  | FWeighted _ _ => False
  | FEquals _ _ => True
  end.

Definition wf_opt {A} (P : A -> Prop) (o : option A) : Prop :=
  match o with None => True | Some x => P x end.

Definition wf_subtask (s : subtask) : Prop :=
  wf_opt is_untyped (sub_id s) /\ is_untyped (sub_task s) /\ Forall is_untyped (sub_terms s).

(** A partial order without position is empty; a total order has no position. *)
Definition wf_htn (h : htn) : Prop :=
  Forall wf_subtask (htn_subtasks h) /\
  match htn_orderings h with
  | Total => htn_ordering_pos h = None
  | Partial l => htn_ordering_pos h = None -> l = []
  end.

Definition wf_method (m : method) : Prop :=
  is_untyped (m_name m) /\ is_untyped (m_task m) /\ wf_args (m_task_terms m) /\ wf_args (m_params m)
  /\ wf_opt wf_formula (m_pre m) /\ wf_htn (m_tn m).

Definition wf_action (a : action) : Prop :=
  wf_args (act_params a) /\ wf_opt wf_formula (act_pre a) /\ wf_opt wf_formula (act_eff a).

(** Declared types and constants are absent or non-empty.  Several blocks add
    up, so typed and untyped names may alternate. *)
Definition wf_decl (l : list symbol) : Prop := Forall (fun s => is_typed s \/ is_untyped s) l.
Definition wf_decls (o : option (list symbol)) : Prop :=
  wf_opt (fun l => l <> [] /\ wf_decl l) o.

Definition wf_domain (d : domain_ast) : Prop :=
  wf_decls (d_types d) /\ wf_decls (d_constants d)
  /\ Forall (fun p => wf_args (pred_vars p)) (d_preds d)
  /\ Forall (fun f => wf_args (func_vars f)) (d_funcs d)
  /\ Forall (fun t => wf_args (task_params t)) (d_tasks d)
  /\ Forall wf_method (d_methods d) /\ Forall wf_action (d_actions d).

Definition wf_problem (p : problem_ast) : Prop :=
  wf_decl (p_objects p)
  /\ wf_opt (fun t => wf_opt wf_args (itn_params t) /\ wf_htn (itn_tn t)) (p_init_tn p)
  /\ Forall (fun q => wf_args (pred_vars q)) (p_init p)
  /\ wf_opt wf_formula (p_goal p).

Definition wf_ast (a : ast) : Prop :=
  match a with ADomain d => wf_domain d | AProblem p => wf_problem p end.

(** ** Canonical tokens *)

Definition LP := TPunct LParen.
Definition RP := TPunct RParen.

Definition sym_tokens (s : symbol) : list token :=
  match sym_type s with
  | None => [TIdent (sym_name s)]
  | Some t => [TIdent (sym_name s); TPunct Dash; TIdent t]
  end.
Definition syms_tokens (l : list symbol) : list token := flat_map sym_tokens l ++ [RP].

Definition weighted (f : formula) : bool := match f with FWeighted _ _ => true | _ => false end.

Fixpoint formula_tokens (f : formula) : list token :=
  match f with
  | FEmpty => [LP; RP]
  | FAtom p => LP :: TIdent (pred_name p) :: syms_tokens (pred_vars p)
  | FNot g => LP :: TOp ONot :: formula_tokens g ++ [RP]
  | FAnd fs =>
    LP :: TOp (if existsb weighted fs then OProbabilistic else OAnd) :: flat_map formula_tokens fs ++ [RP]
  | FOr fs => LP :: TOp OOr :: flat_map formula_tokens fs ++ [RP]
  | FXor fs => LP :: TOp OXor :: flat_map formula_tokens fs ++ [RP]
  | FImply ps qs => []
  | FExists v g => LP :: TOp OExists :: LP :: syms_tokens v ++ formula_tokens g ++ [RP]
  | FForAll v g => LP :: TOp OForAll :: LP :: syms_tokens v ++ formula_tokens g ++ [RP]
  | FWeighted w g => TNumber w :: formula_tokens g
  | FEquals a b => [LP; TOp OEqual; TIdent a; TIdent b; RP]
  end.

Definition names_tokens (l : list symbol) : list token := map (fun s => TIdent (sym_name s)) l.

Definition subtask_tokens (s : subtask) : list token :=
  LP :: match sub_id s with
        | None => TIdent (sym_name (sub_task s)) :: names_tokens (sub_terms s) ++ [RP]
        | Some i => TIdent (sym_name i) :: LP :: TIdent (sym_name (sub_task s))
                    :: names_tokens (sub_terms s) ++ [RP; RP]
        end.

Definition constr_tokens (c : constr) : list token :=
  match c with
  | CEqual a b => [LP; TOp OEqual; TIdent a; TIdent b; RP]
  | CNotEqual a b => [LP; TOp ONot; LP; TOp OEqual; TIdent a; TIdent b; RP; RP]
  end.

Definition and_block (l : list (list token)) : list token := LP :: TOp OAnd :: concat l ++ [RP].

(** Includes the parenthesis that closes the enclosing block, which is not
    written after ordered subtasks with constraints. *)
Definition htn_tokens (h : htn) : list token :=
  let subs := and_block (map subtask_tokens (htn_subtasks h)) in
  let constrs c := TKeyword KConstraints :: and_block (map constr_tokens c) in
  match htn_orderings h with
  | Partial l =>
    TKeyword KSubtasks :: subs
    ++ match htn_ordering_pos h with
       | None => []
       | Some _ => TKeyword KOrdering
                   :: and_block (map (fun o => [LP; TOp OLess; TIdent (fst o); TIdent (snd o); RP]) l)
       end
    ++ match htn_constraints h with None => [] | Some c => constrs c end ++ [RP]
  | Total =>
    TKeyword KOrderedSubtasks :: subs
    ++ match htn_constraints h with None => [RP] | Some c => constrs c end
  end.

Definition opt_formula_tokens (k : keyword) (o : option formula) : list token :=
  match o with None => [] | Some f => TKeyword k :: formula_tokens f end.

Definition task_tokens (n : string) (params : list symbol) : list token :=
  TIdent n :: TKeyword KParameters :: LP :: syms_tokens params.

Definition method_tokens (m : method) : list token :=
  LP :: TKeyword KMethod :: task_tokens (sym_name (m_name m)) (m_params m)
  ++ TKeyword KTask :: LP :: TIdent (sym_name (m_task m)) :: syms_tokens (m_task_terms m)
  ++ opt_formula_tokens KPrecondition (m_pre m) ++ htn_tokens (m_tn m).

Definition action_tokens (a : action) : list token :=
  LP :: TKeyword KAction :: task_tokens (act_name a) (act_params a)
  ++ opt_formula_tokens KPrecondition (act_pre a) ++ opt_formula_tokens KEffect (act_eff a) ++ [RP].

Definition req_tokens (l : list requirement) : list token :=
  LP :: TKeyword KRequirements :: map TReq l ++ [RP].
Definition pred_tokens (p : predicate) : list token :=
  LP :: TIdent (pred_name p) :: syms_tokens (pred_vars p).
Definition func_tokens (p : func) : list token :=
  LP :: TIdent (func_name p) :: syms_tokens (func_vars p).

(** Types, constants and objects: one block for each name. *)
Definition decl_tokens (k : keyword) (l : list symbol) : list token :=
  flat_map (fun s => LP :: TKeyword k :: sym_tokens s ++ [RP]) l.

Definition domain_tokens (d : domain_ast) : list token :=
  [LP; TKeyword KDefine; LP; TKeyword KDomain; TIdent (d_name d); RP]
  ++ req_tokens (d_reqs d)
  ++ match d_types d with None => [] | Some l => decl_tokens KTypes l end
  ++ match d_constants d with None => [] | Some l => decl_tokens KConstants l end
  ++ LP :: TKeyword KPredicates :: flat_map pred_tokens (d_preds d) ++ [RP]
  ++ LP :: TKeyword KFunctions :: flat_map func_tokens (d_funcs d) ++ [RP]
  ++ flat_map (fun t => LP :: TKeyword KTask :: task_tokens (task_name t) (task_params t) ++ [RP]) (d_tasks d)
  ++ flat_map method_tokens (d_methods d)
  ++ flat_map action_tokens (d_actions d) ++ [RP].

(** The names in a problem header are not part of the tree. *)
Definition problem_tokens (p : problem_ast) : list token :=
  [LP; TKeyword KDefine; LP; TKeyword KProblem; TIdent "p"; RP; LP; TKeyword KDomain; TIdent "d"; RP]
  ++ req_tokens (p_reqs p)
  ++ decl_tokens KObjects (p_objects p)
  ++ match p_init_tn p with
     | None => []
     | Some t => LP :: TKeyword KHTN
                 :: match itn_params t with
                    | None => [] | Some l => TKeyword KParameters :: LP :: syms_tokens l end
                 ++ htn_tokens (itn_tn t)
     end
  ++ LP :: TKeyword KInit :: flat_map pred_tokens (p_init p) ++ [RP]
  ++ match p_goal p with None => [] | Some f => LP :: TKeyword KGoal :: formula_tokens f end ++ [RP].

Definition ast_tokens (a : ast) : list token :=
  match a with ADomain d => domain_tokens d | AProblem p => problem_tokens p end.

(** ** Moving a tree to one line *)
Section At.
Variable L : N.

Definition sym_at (s : symbol) : symbol :=
  mkSym (sym_name s) L (sym_type s) (option_map (fun _ => L) (sym_type_pos s)).
Definition pred_at (p : predicate) := mkPred (pred_name p) L (map sym_at (pred_vars p)).
Definition func_at (p : func) := mkFunc (func_name p) L (map sym_at (func_vars p)).
Definition task_at (p : task) := mkTask (task_name p) L (map sym_at (task_params p)).
Fixpoint formula_at (f : formula) : formula :=
  match f with
  | FEmpty => FEmpty
  | FAtom p => FAtom (pred_at p)
  | FNot g => FNot (formula_at g)
  | FAnd fs => FAnd (map formula_at fs)
  | FOr fs => FOr (map formula_at fs)
  | FXor fs => FXor (map formula_at fs)
  | FImply ps qs => FImply (map formula_at ps) (map formula_at qs)
  | FExists v g => FExists (map sym_at v) (formula_at g)
  | FForAll v g => FForAll (map sym_at v) (formula_at g)
  | FWeighted w g => FWeighted w (formula_at g)
  | FEquals a b => FEquals a b
  end.
Definition subtask_at (s : subtask) :=
  mkSub (option_map sym_at (sub_id s)) (sym_at (sub_task s)) (map sym_at (sub_terms s)).
Definition htn_at (h : htn) :=
  mkHtn (map subtask_at (htn_subtasks h)) (option_map (fun _ => L) (htn_ordering_pos h))
        (htn_orderings h) (htn_constraints h).
Definition method_at (m : method) :=
  mkMethod (sym_at (m_name m)) (sym_at (m_task m)) (map sym_at (m_task_terms m)) (map sym_at (m_params m))
           (option_map formula_at (m_pre m)) (htn_at (m_tn m)).
Definition action_at (a : action) :=
  mkAction (act_name a) L (map sym_at (act_params a)) (option_map formula_at (act_pre a))
           (option_map formula_at (act_eff a)).
Definition domain_at (d : domain_ast) :=
  mkDomain (d_name d) (option_map (map sym_at) (d_types d)) (option_map (map sym_at) (d_constants d))
           (d_reqs d) (map pred_at (d_preds d)) (map task_at (d_tasks d)) (map method_at (d_methods d))
           (map action_at (d_actions d)) (map func_at (d_funcs d)).
Definition problem_at (p : problem_ast) :=
  mkProblem (p_reqs p)
    (option_map (fun t => mkInit (option_map (map sym_at) (itn_params t)) (htn_at (itn_tn t))) (p_init_tn p))
    (map pred_at (p_init p)) (option_map formula_at (p_goal p)) (map sym_at (p_objects p)).
Definition ast_at (a : ast) : ast :=
  match a with ADomain d => ADomain (domain_at d) | AProblem p => AProblem (problem_at p) end.
End At.

(** ** Canonical text: every token followed by a blank; identifiers that are
    not plain words are written with a leading question mark. *)
Definition is_alpha (c : ascii) : bool := in_range 65 90 c || in_range 97 122 c.
Definition plain_char (c : ascii) : bool := is_alpha c || is_digit c || Ascii.eqb c "_" || Ascii.eqb c "-".
Fixpoint all_plain (s : string) : bool :=
  match s with EmptyString => true | String c r => plain_char c && all_plain r end.
Definition reserved_words : list string :=
  ["define"; "domain"; "problem"; "and"; "or"; "oneof"; "not"; "forall"; "exists"; "imply"; "probabilistic"]%string.
Definition plain_word (w : string) : bool :=
  match w with
  | EmptyString => false
  | String c _ => is_alpha c && all_plain w && negb (existsb (String.eqb w) reserved_words)
  end.

Definition token_text (t : token) : string :=
  match t with
  | TIdent w => if plain_word w then w else String "?" w
  | TNumber (Integer z) => show_Z z
  | TNumber (Real l) => l
  | TPunct LParen => "(" | TPunct RParen => ")" | TPunct Dash => "-"
  | TOp OLess => "<" | TOp OGreater => ">" | TOp OLessEq => "<=" | TOp OGreaterEq => ">="
  | TOp OEqual => "="
  | _ => match bare_text t, colon_text t with
         | w :: _, _ => w
         | [], w :: _ => String ":" w
         | [], [] => ""
         end
  end.

Fixpoint tokens_text (ts : list token) : string :=
  match ts with [] => "" | t :: r => token_text t ++ String " " (tokens_text r) end.

Definition ast_text (a : ast) : string := tokens_text (ast_tokens a).
