(** Chains of decompositions without a repeated task (specification for C63). *)
From Coq Require Import String List.
From Verif Require Import Base Token Errors Ast SpecTdg SpecRec.
Import ListNotations.
Open Scope list_scope.

(** Each method has the head of the next one among its subtasks. *)
Fixpoint linked (ms : list method) : Prop :=
  match ms with
  | [] => True
  | m :: ms' => match ms' with
                | [] => True
                | m' :: _ => In (head m') (subtask_names m) /\ linked ms'
                end
  end.

(** A non-empty chain of methods of the domain for pairwise different tasks. *)
Definition method_path (d : domain_ast) (ms : list method) : Prop :=
  ms <> [] /\ incl ms (d_methods d) /\ NoDup (map head ms) /\ linked ms.
