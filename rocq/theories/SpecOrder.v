(** Which partially ordered methods the search for recursion copes with
    (specification for C40). *)
From Coq Require Import String List Relations.
From Verif Require Import Base Token Errors Ast SpecRec.
Import ListNotations.
Open Scope list_scope.

(** [o] is a part of the text [j]. *)
Definition contains (j o : string) : Prop := exists u v, j = (u ++ o ++ v)%string.
(** [i] is an identifier of a subtask [x]. *)
Definition occurs (m : method) (x i : string) : Prop :=
  exists s, In s (htn_subtasks (m_tn m)) /\ id_of s = Some i /\ sym_name (sub_task s) = x.

(** One constraint less than subtasks; nothing placed directly after an
    occurrence of [x] contains the identifier of an occurrence of [x] in its own;
    what is placed after an occurrence of [x], directly or not, identifies a
    subtask and is not placed after itself. *)
Definition usable (m : method) (x : string) : Prop :=
  match htn_orderings (m_tn m) with
  | Total => True
  | Partial ords =>
    S (length ords) = length (htn_subtasks (m_tn m))
    /\ (forall i j o, occurs m x i -> In (i, j) ords -> occurs m x o -> ~ contains j o)
    /\ (forall i j, occurs m x i -> clos_trans string (fun a b => In (a, b) ords) i j ->
          (exists y, denotes m j y) /\ ~ clos_trans string (fun a b => In (a, b) ords) j j)
  end.
