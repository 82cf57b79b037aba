(** The concrete grammar of domain and problem documents, as relations between
    a list of (token, line) pairs and the syntax tree it denotes.  Written
    independently of the parser; it only uses the token and tree types.

    Deviations of the implemented language from the intended one are visible
    here as productions: an "open" network consumes no closing parenthesis
    (index [true]: the next token has to be ')'), a task network with ordered
    subtasks and constraints and a goal have no closing parenthesis at all,
    a single ')' is an (empty) formula. *)
From Coq Require Import String Ascii NArith ZArith Bool List.
From Verif Require Import Base Token Ast.
Import ListNotations.
Open Scope list_scope.

(** A token with the line it is written in. *)
Definition tok := (token * N)%type.

Definition lp (l : N) : tok := (TPunct LParen, l).
Definition rp (l : N) : tok := (TPunct RParen, l).
Definition kw (k : keyword) (l : N) : tok := (TKeyword k, l).
Definition oper (o : op) (l : N) : tok := (TOp o, l).
Definition id (s : string) (l : N) : tok := (TIdent s, l).

(** Names with their lines. *)
Definition ids (ns : list (string * N)) : list tok := map (fun n => id (fst n) (snd n)) ns.

Definition untyped (n : string * N) : symbol := mkSym (fst n) (snd n) None None.
Definition with_type (t : string) (l : N) (n : string * N) : symbol :=
  mkSym (fst n) (snd n) (Some t) (Some l).

(** Typed lists, up to and including ')':  a b - t c )  *)
Inductive GArgs : list tok -> list symbol -> Prop :=
| ga_end ns l : GArgs (ids ns ++ [rp l]) (map untyped ns)
| ga_group ns l t lt ts r :
    GArgs ts r ->
    GArgs (ids ns ++ (TPunct Dash, l) :: id t lt :: ts) (map (with_type t lt) ns ++ r).

(** Requirements, up to and including ')'. *)
Inductive GReqs : list tok -> list requirement -> Prop :=
| gr_end l : GReqs [rp l] []
| gr_cons r l ts rs : GReqs ts rs -> GReqs ((TReq r, l) :: ts) (r :: rs).

(** Predicate and function declarations, up to and including the ')' of the block. *)
Inductive GPreds : list tok -> list predicate -> Prop :=
| gp_end l : GPreds [rp l] []
| gp_cons l n ln ts vars us ps :
    GArgs ts vars -> GPreds us ps ->
    GPreds (lp l :: id n ln :: ts ++ us) (mkPred n ln vars :: ps).

Inductive GFuncs : list tok -> list func -> Prop :=
| gf_end l : GFuncs [rp l] []
| gf_cons l n ln ts vars us fs :
    GArgs ts vars -> GFuncs us fs ->
    GFuncs (lp l :: id n ln :: ts ++ us) (mkFunc n ln vars :: fs).

(** Formulas; members of a connective (closed by an empty formula); branches
    of a probabilistic effect. *)
Inductive GFormula : list tok -> formula -> Prop :=
| gfo_close l : GFormula [rp l] FEmpty
| gfo_empty l1 l2 : GFormula [lp l1; rp l2] FEmpty
| gfo_atom l n ln ts vars :
    GArgs ts vars -> GFormula (lp l :: id n ln :: ts) (FAtom (mkPred n ln vars))
| gfo_not l1 l2 ts f l3 :
    GFormula ts f -> GFormula (lp l1 :: oper ONot l2 :: ts ++ [rp l3]) (FNot f)
| gfo_and l1 l2 ts fs : GMembers ts fs -> GFormula (lp l1 :: oper OAnd l2 :: ts) (FAnd fs)
| gfo_or l1 l2 ts fs : GMembers ts fs -> GFormula (lp l1 :: oper OOr l2 :: ts) (FOr fs)
| gfo_xor l1 l2 ts fs : GMembers ts fs -> GFormula (lp l1 :: oper OXor l2 :: ts) (FXor fs)
| gfo_equal l1 l2 a la b lb l3 :
    GFormula [lp l1; oper OEqual l2; id a la; id b lb; rp l3] (FEquals a b)
| gfo_forall l1 l2 l3 ts vars us f l4 :
    GArgs ts vars -> GFormula us f ->
    GFormula (lp l1 :: oper OForAll l2 :: lp l3 :: ts ++ us ++ [rp l4]) (FForAll vars f)
| gfo_exists l1 l2 l3 ts vars us f l4 :
    GArgs ts vars -> GFormula us f ->
    GFormula (lp l1 :: oper OExists l2 :: lp l3 :: ts ++ us ++ [rp l4]) (FExists vars f)
| gfo_prob l1 l2 ts fs :
    GBranches ts fs -> GFormula (lp l1 :: oper OProbabilistic l2 :: ts) (FAnd fs)
with GMembers : list tok -> list formula -> Prop :=
| gm_end ts : GFormula ts FEmpty -> GMembers ts []
| gm_cons ts f us fs :
    GFormula ts f -> f <> FEmpty -> GMembers us fs -> GMembers (ts ++ us) (f :: fs)
with GBranches : list tok -> list formula -> Prop :=
| gb_end l : GBranches [rp l] []
| gb_cons w l ts f us fs :
    GFormula ts f -> f <> FEmpty -> GBranches us fs ->
    GBranches ((TNumber w, l) :: ts ++ us) (FWeighted w f :: fs).

(** Tasks, after "(:task" or "(:action". *)
Inductive GTask : list tok -> task -> Prop :=
| gt n ln l1 l2 ts params :
    GArgs ts params ->
    GTask (id n ln :: kw KParameters l1 :: lp l2 :: ts) (mkTask n ln params).

(** An optional formula introduced by a keyword. *)
Inductive GOptFormula (k : keyword) : list tok -> option formula -> Prop :=
| gof_none : GOptFormula k [] None
| gof_some l ts f : GFormula ts f -> GOptFormula k (kw k l :: ts) (Some f).

Inductive GAction : list tok -> action -> Prop :=
| gac ts n ln params us pre vs eff l :
    GTask ts (mkTask n ln params) ->
    GOptFormula KPrecondition us pre -> GOptFormula KEffect vs eff ->
    GAction (ts ++ us ++ vs ++ [rp l]) (mkAction n ln params pre eff).

(** Ordering constraints.  "(< t1 t2 t3)" orders t1 before t2 and before t3. *)
Inductive GOrder : list tok -> list (string * string) -> Prop :=
| go l1 t1 lt ns l2 :
    GOrder (oper OLess l1 :: id t1 lt :: ids ns ++ [rp l2]) (map (fun n => (t1, fst n)) ns).

Inductive GOrderList : list tok -> list (string * string) -> Prop :=
| gol_end l : GOrderList [rp l] []
| gol_cons l ts o us os : GOrder ts o -> GOrderList us os -> GOrderList (lp l :: ts ++ us) (o ++ os).

Inductive GOrderings : list tok -> list (string * string) -> Prop :=
| gos_empty l1 l2 : GOrderings [lp l1; rp l2] []
| gos_one l ts o : GOrder ts o -> GOrderings (lp l :: ts) o
| gos_and l1 l2 ts o : GOrderList ts o -> GOrderings (lp l1 :: oper OAnd l2 :: ts) o.

(** Subtasks, after their '('. *)
Inductive GSubtask : list tok -> subtask -> Prop :=
| gs_plain n ln ns l :
    GSubtask (id n ln :: ids ns ++ [rp l]) (mkSub None (untyped (n, ln)) (map untyped ns))
| gs_id i li l1 n ln ns l2 l3 :
    GSubtask (id i li :: lp l1 :: id n ln :: ids ns ++ [rp l2; rp l3])
             (mkSub (Some (untyped (i, li))) (untyped (n, ln)) (map untyped ns)).

Inductive GSubtaskList : list tok -> list subtask -> Prop :=
| gsl_end l : GSubtaskList [rp l] []
| gsl_cons l ts s us ss : GSubtask ts s -> GSubtaskList us ss -> GSubtaskList (lp l :: ts ++ us) (s :: ss).

Inductive GSubtasks : list tok -> list subtask -> Prop :=
| gss_empty l1 l2 : GSubtasks [lp l1; rp l2] []
| gss_one l ts s : GSubtask ts s -> GSubtasks (lp l :: ts) [s]
| gss_and l1 l2 ts ss : GSubtaskList ts ss -> GSubtasks (lp l1 :: oper OAnd l2 :: ts) ss.

(** Constraints, after their '('. *)
Inductive GConstraint : list tok -> constr -> Prop :=
| gc_equal l1 a la b lb l2 :
    GConstraint [oper OEqual l1; id a la; id b lb; rp l2] (CEqual a b)
| gc_not l1 l2 l3 a la b lb l4 l5 :
    GConstraint [oper ONot l1; lp l2; oper OEqual l3; id a la; id b lb; rp l4; rp l5] (CNotEqual a b).

Inductive GConstraintList : list tok -> list constr -> Prop :=
| gcl_end l : GConstraintList [rp l] []
| gcl_cons l ts c us cs :
    GConstraint ts c -> GConstraintList us cs -> GConstraintList (lp l :: ts ++ us) (c :: cs).

Inductive GConstraints : list tok -> list constr -> Prop :=
| gcs_empty l1 l2 : GConstraints [lp l1; rp l2] []
| gcs_one l ts c : GConstraint ts c -> GConstraints (lp l :: ts) [c]
| gcs_and l1 l2 ts cs : GConstraintList ts cs -> GConstraints (lp l1 :: oper OAnd l2 :: ts) cs.

(** The clauses after ":subtasks ...", up to and including the ')' of the
    block: orderings add up, later constraints replace earlier ones, the
    recorded position is that of the last ":ordering".  The arguments [o], [l]
    and [c] are position, orderings and constraints so far. *)
Inductive GClauses (s : list subtask) :
  option N -> list (string * string) -> option (list constr) -> list tok -> htn -> Prop :=
| gcl_close o l c r : GClauses s o l c [rp r] (mkHtn s o (Partial l) c)
| gcl_ordering o l c p ts l' us h :
    GOrderings ts l' -> GClauses s (Some p) (l ++ l') c us h ->
    GClauses s o l c (kw KOrdering p :: ts ++ us) h
| gcl_constraints o l c p ts c' us h :
    GConstraints ts c' -> GClauses s o l (Some c') us h ->
    GClauses s o l c (kw KConstraints p :: ts ++ us) h.

(** Task networks; index [true]: nothing was consumed and ')' has to follow. *)
Inductive GHtn : list tok -> htn -> bool -> Prop :=
| gh_open : GHtn [] (mkHtn [] None (Partial []) None) true
| gh_partial l ts s us h :
    GSubtasks ts s -> GClauses s None [] None us h -> GHtn (kw KSubtasks l :: ts ++ us) h false
| gh_total l ts s r :
    GSubtasks ts s -> GHtn (kw KOrderedSubtasks l :: ts ++ [rp r]) (mkHtn s None Total None) false
| gh_total_constraints l ts s l' us c :
    GSubtasks ts s -> GConstraints us c ->
    GHtn (kw KOrderedSubtasks l :: ts ++ kw KConstraints l' :: us) (mkHtn s None Total (Some c)) false.

Inductive GInitTn : list tok -> init_tn -> bool -> Prop :=
| gi_plain ts h b : GHtn ts h b -> GInitTn ts (mkInit None h) b
| gi_params l1 l2 ts params us h b :
    GArgs ts params -> GHtn us h b ->
    GInitTn (kw KParameters l1 :: lp l2 :: ts ++ us) (mkInit (Some params) h) b.

(** Methods, after "(:method".  Without a precondition there has to be a
    decomposition. *)
Inductive GMethod : list tok -> method -> bool -> Prop :=
| gme n ln l1 l2 ts params l3 l4 t lt us terms vs pre ws h b :
    GArgs ts params -> GArgs us terms -> GOptFormula KPrecondition vs pre -> GHtn ws h b ->
    (pre = None -> b = false) ->
    GMethod (id n ln :: kw KParameters l1 :: lp l2 :: ts
             ++ kw KTask l3 :: lp l4 :: id t lt :: us ++ vs ++ ws)
            (mkMethod (untyped (n, ln)) (untyped (t, lt)) terms params pre h) b.

(** One block of a domain and the declarations it contributes. *)
Inductive dblock :=
| BReqs (l : list requirement) | BTypes (l : list symbol) | BConstants (l : list symbol)
| BPreds (l : list predicate) | BFuncs (l : list func) | BTask (t : task)
| BMethod (m : method) | BAction (a : action).

Inductive GBlock : list tok -> dblock -> bool -> Prop :=
| gbl_reqs l1 l2 ts r : GReqs ts r -> GBlock (lp l1 :: kw KRequirements l2 :: ts) (BReqs r) false
| gbl_types l1 l2 ts r : GArgs ts r -> GBlock (lp l1 :: kw KTypes l2 :: ts) (BTypes r) false
| gbl_constants l1 l2 ts r : GArgs ts r -> GBlock (lp l1 :: kw KConstants l2 :: ts) (BConstants r) false
| gbl_preds l1 l2 ts r : GPreds ts r -> GBlock (lp l1 :: kw KPredicates l2 :: ts) (BPreds r) false
| gbl_funcs l1 l2 ts r : GFuncs ts r -> GBlock (lp l1 :: kw KFunctions l2 :: ts) (BFuncs r) false
| gbl_task l1 l2 ts r l3 : GTask ts r -> GBlock (lp l1 :: kw KTask l2 :: ts ++ [rp l3]) (BTask r) false
| gbl_method l1 l2 ts r b : GMethod ts r b -> GBlock (lp l1 :: kw KMethod l2 :: ts) (BMethod r) b
| gbl_action l1 l2 ts r : GAction ts r -> GBlock (lp l1 :: kw KAction l2 :: ts) (BAction r) false.

(** A sequence of blocks closed by ')'; an open block is the last one. *)
Inductive GBlocks : list tok -> list dblock -> Prop :=
| gbs_end l : GBlocks [rp l] []
| gbs_open ts b l : GBlock ts b true -> GBlocks (ts ++ [rp l]) [b]
| gbs_cons ts b us bs : GBlock ts b false -> GBlocks us bs -> GBlocks (ts ++ us) (b :: bs).

(** The tree of a list of blocks: declarations in order of appearance; types
    and constants are absent (not empty) when nothing was declared. *)
Definition some_if {A} (l : list A) : option (list A) :=
  match l with [] => None | _ => Some l end.

Definition domain_of (name : string) (bs : list dblock) : domain_ast :=
  mkDomain name
    (some_if (flat_map (fun b => match b with BTypes l => l | _ => [] end) bs))
    (some_if (flat_map (fun b => match b with BConstants l => l | _ => [] end) bs))
    (flat_map (fun b => match b with BReqs l => l | _ => [] end) bs)
    (flat_map (fun b => match b with BPreds l => l | _ => [] end) bs)
    (flat_map (fun b => match b with BTask t => [t] | _ => [] end) bs)
    (flat_map (fun b => match b with BMethod m => [m] | _ => [] end) bs)
    (flat_map (fun b => match b with BAction a => [a] | _ => [] end) bs)
    (flat_map (fun b => match b with BFuncs l => l | _ => [] end) bs).

(** Problem blocks.  The goal has no closing parenthesis of its own. *)
Inductive pblock :=
| QReqs (l : list requirement) | QObjects (l : list symbol) | QHtn (t : init_tn)
| QGoal (f : formula) | QInit (l : list predicate).

Inductive GPBlock : list tok -> pblock -> bool -> Prop :=
| gpb_reqs l1 l2 ts r : GReqs ts r -> GPBlock (lp l1 :: kw KRequirements l2 :: ts) (QReqs r) false
| gpb_objects l1 l2 ts r : GArgs ts r -> GPBlock (lp l1 :: kw KObjects l2 :: ts) (QObjects r) false
| gpb_htn l1 l2 ts r b : GInitTn ts r b -> GPBlock (lp l1 :: kw KHTN l2 :: ts) (QHtn r) b
| gpb_goal l1 l2 ts r : GFormula ts r -> GPBlock (lp l1 :: kw KGoal l2 :: ts) (QGoal r) false
| gpb_init l1 l2 ts r : GPreds ts r -> GPBlock (lp l1 :: kw KInit l2 :: ts) (QInit r) false.

(** A sequence of problem blocks, closed by ')' or by the end of the file. *)
Inductive GPBlocks : list tok -> list pblock -> Prop :=
| gpbs_end l : GPBlocks [rp l] []
| gpbs_eof l : GPBlocks [(TEOF, l)] []
| gpbs_open ts b l : GPBlock ts b true -> GPBlocks (ts ++ [rp l]) [b]
| gpbs_cons ts b us bs : GPBlock ts b false -> GPBlocks us bs -> GPBlocks (ts ++ us) (b :: bs).

(** The last element a block list provides for a single-valued field. *)
Definition last_some {A B} (f : A -> option B) (l : list A) : option B :=
  fold_left (fun o x => match f x with Some y => Some y | None => o end) l None.

Definition problem_of (bs : list pblock) : problem_ast :=
  mkProblem
    (flat_map (fun b => match b with QReqs l => l | _ => [] end) bs)
    (last_some (fun b => match b with QHtn t => Some t | _ => None end) bs)
    (match last_some (fun b => match b with QInit l => Some l | _ => None end) bs with
     | Some l => l | None => [] end)
    (last_some (fun b => match b with QGoal f => Some f | _ => None end) bs)
    (flat_map (fun b => match b with QObjects l => l | _ => [] end) bs).

(** Documents. *)
Inductive GDocument : list tok -> ast -> Prop :=
| gd_domain l1 l2 l3 l4 n ln l5 ts bs :
    GBlocks ts bs ->
    GDocument (lp l1 :: kw KDefine l2 :: lp l3 :: kw KDomain l4 :: id n ln :: rp l5 :: ts)
              (ADomain (domain_of n bs))
| gd_problem l1 l2 l3 l4 n ln l5 l6 l7 m lm l8 ts bs :
    GPBlocks ts bs ->
    GDocument (lp l1 :: kw KDefine l2 :: lp l3 :: kw KProblem l4 :: id n ln :: rp l5
               :: lp l6 :: kw KDomain l7 :: id m lm :: rp l8 :: ts)
              (AProblem (problem_of bs)).

Scheme GFormula_mut := Induction for GFormula Sort Prop
  with GMembers_mut := Induction for GMembers Sort Prop
  with GBranches_mut := Induction for GBranches Sort Prop.
