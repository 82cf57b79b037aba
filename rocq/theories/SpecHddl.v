(** The standard form of domain and problem documents (specification for C62):
    the productions of HDDL for formulas, effects, actions, methods, task
    networks and problems, with the tree they stand for.  Typed lists,
    declarations, subtasks, orderings and constraints are those of
    SpecGrammar.v. *)
From Coq Require Import String NArith List.
From Verif Require Import Base Token Ast SpecGrammar.
Import ListNotations.
Open Scope list_scope.

(** Formulas: every one is enclosed by its own parentheses.  [HGd] may be the
    empty one, "()". *)
Inductive HFormula : list tok -> formula -> Prop :=
| hf_atom l n ln ts vars : GArgs ts vars -> HFormula (lp l :: id n ln :: ts) (FAtom (mkPred n ln vars))
| hf_equal l1 l2 a la b lb l3 : HFormula [lp l1; oper OEqual l2; id a la; id b lb; rp l3] (FEquals a b)
| hf_not l1 l2 ts f l3 : HGd ts f -> HFormula (lp l1 :: oper ONot l2 :: ts ++ [rp l3]) (FNot f)
| hf_and l1 l2 ts fs l3 : HList ts fs -> HFormula (lp l1 :: oper OAnd l2 :: ts ++ [rp l3]) (FAnd fs)
| hf_or l1 l2 ts fs l3 : HList ts fs -> HFormula (lp l1 :: oper OOr l2 :: ts ++ [rp l3]) (FOr fs)
| hf_forall l1 l2 l3 ts vars us f l4 :
    GArgs ts vars -> HGd us f -> HFormula (lp l1 :: oper OForAll l2 :: lp l3 :: ts ++ us ++ [rp l4]) (FForAll vars f)
| hf_exists l1 l2 l3 ts vars us f l4 :
    GArgs ts vars -> HGd us f -> HFormula (lp l1 :: oper OExists l2 :: lp l3 :: ts ++ us ++ [rp l4]) (FExists vars f)
with HGd : list tok -> formula -> Prop :=
| hg_empty l1 l2 : HGd [lp l1; rp l2] FEmpty
| hg_some ts f : HFormula ts f -> HGd ts f
with HList : list tok -> list formula -> Prop :=
| hl_nil : HList [] []
| hl_cons ts f us fs : HFormula ts f -> HList us fs -> HList (ts ++ us) (f :: fs).

(** An optional clause: a keyword and a formula. *)
Inductive HOpt (k : keyword) : list tok -> option formula -> Prop :=
| ho_none : HOpt k [] None
| ho_some l ts f : HGd ts f -> HOpt k (kw k l :: ts) (Some f).

(** Task networks: subtasks in a total order, or subtasks with optional ordering
    and constraints. *)
Inductive HOrder : list tok -> option N -> list (string * string) -> Prop :=
| hor_none : HOrder [] None []
| hor_some l ts o : GOrderings ts o -> HOrder (kw KOrdering l :: ts) (Some l) o.
Inductive HConstraints : list tok -> option (list constr) -> Prop :=
| hco_none : HConstraints [] None
| hco_some l ts c : GConstraints ts c -> HConstraints (kw KConstraints l :: ts) (Some c).
Inductive HNetwork : list tok -> htn -> Prop :=
| hn_total l ts s : GSubtasks ts s -> HNetwork (kw KOrderedSubtasks l :: ts) (mkHtn s None Total None)
| hn_partial l ts s us p o vs c :
    GSubtasks ts s -> HOrder us p o -> HConstraints vs c ->
    HNetwork (kw KSubtasks l :: ts ++ us ++ vs) (mkHtn s p (Partial o) c).

(** Declarations, each with its closing parenthesis. *)
Inductive HBlock : list tok -> dblock -> Prop :=
| hb_reqs l1 l2 ts r : GReqs ts r -> HBlock (lp l1 :: kw KRequirements l2 :: ts) (BReqs r)
| hb_types l1 l2 ts r : GArgs ts r -> HBlock (lp l1 :: kw KTypes l2 :: ts) (BTypes r)
| hb_constants l1 l2 ts r : GArgs ts r -> HBlock (lp l1 :: kw KConstants l2 :: ts) (BConstants r)
| hb_preds l1 l2 ts r : GPreds ts r -> HBlock (lp l1 :: kw KPredicates l2 :: ts) (BPreds r)
| hb_task l1 l2 n ln l3 l4 ts params l5 :
    GArgs ts params ->
    HBlock (lp l1 :: kw KTask l2 :: id n ln :: kw KParameters l3 :: lp l4 :: ts ++ [rp l5]) (BTask (mkTask n ln params))
| hb_action l1 l2 n ln l3 l4 ts params us pre vs eff l5 :
    GArgs ts params -> HOpt KPrecondition us pre -> HOpt KEffect vs eff ->
    HBlock (lp l1 :: kw KAction l2 :: id n ln :: kw KParameters l3 :: lp l4 :: ts ++ us ++ vs ++ [rp l5])
           (BAction (mkAction n ln params pre eff))
| hb_method l1 l2 n ln l3 l4 ts params l5 l6 t lt us terms vs pre ws h l7 :
    GArgs ts params -> GArgs us terms -> HOpt KPrecondition vs pre -> HNetwork ws h ->
    HBlock (lp l1 :: kw KMethod l2 :: id n ln :: kw KParameters l3 :: lp l4 :: ts
            ++ kw KTask l5 :: lp l6 :: id t lt :: us ++ vs ++ ws ++ [rp l7])
           (BMethod (mkMethod (untyped (n, ln)) (untyped (t, lt)) terms params pre h)).

Inductive HPBlock : list tok -> pblock -> Prop :=
| hp_reqs l1 l2 ts r : GReqs ts r -> HPBlock (lp l1 :: kw KRequirements l2 :: ts) (QReqs r)
| hp_objects l1 l2 ts r : GArgs ts r -> HPBlock (lp l1 :: kw KObjects l2 :: ts) (QObjects r)
| hp_htn l1 l2 ts h l3 : HNetwork ts h -> HPBlock (lp l1 :: kw KHTN l2 :: ts ++ [rp l3]) (QHtn (mkInit None h))
| hp_htn_params l1 l2 l3 l4 ts params us h l5 :
    GArgs ts params -> HNetwork us h ->
    HPBlock (lp l1 :: kw KHTN l2 :: kw KParameters l3 :: lp l4 :: ts ++ us ++ [rp l5]) (QHtn (mkInit (Some params) h))
| hp_init l1 l2 ts r : GPreds ts r -> HPBlock (lp l1 :: kw KInit l2 :: ts) (QInit r).

Inductive HMany {B} (P : list tok -> B -> Prop) : list tok -> list B -> Prop :=
| hm_nil : HMany P [] []
| hm_cons ts b us bs : P ts b -> HMany P us bs -> HMany P (ts ++ us) (b :: bs).
Inductive HGoal : list tok -> list pblock -> Prop :=
| hgo_none : HGoal [] []
| hgo_some l1 l2 ts f l3 : HGd ts f -> HGoal (lp l1 :: kw KGoal l2 :: ts ++ [rp l3]) [QGoal f].

(** Documents: declarations in any order; in problems the goal comes last. *)
Inductive HDocument : list tok -> ast -> Prop :=
| hd_domain l1 l2 l3 l4 n ln l5 ts bs l6 :
    HMany HBlock ts bs ->
    HDocument (lp l1 :: kw KDefine l2 :: lp l3 :: kw KDomain l4 :: id n ln :: rp l5 :: ts ++ [rp l6])
              (ADomain (domain_of n bs))
| hd_problem l1 l2 l3 l4 n ln l5 l6 l7 m lm l8 ts bs us g l9 :
    HMany HPBlock ts bs -> HGoal us g ->
    HDocument (lp l1 :: kw KDefine l2 :: lp l3 :: kw KProblem l4 :: id n ln :: rp l5
               :: lp l6 :: kw KDomain l7 :: id m lm :: rp l8 :: ts ++ us ++ [rp l9])
              (AProblem (problem_of (bs ++ g))).

Scheme HFormula_mut := Induction for HFormula Sort Prop
  with HGd_mut := Induction for HGd Sort Prop
  with HList_mut := Induction for HList Sort Prop.
