(** Recursion through decomposition, stated on names (specification for C26).

    A cycle is given by its methods: each method has the head of the next one
    among its subtasks, and the last one has the head of the first. *)
From Coq Require Import String List Relations.
From Verif Require Import Base Token Errors Ast Tdg SpecTdg.
Import ListNotations.
Open Scope list_scope.

Definition head (m : method) : string := sym_name (m_task m).
Definition id_of (s : subtask) : option string := option_map sym_name (sub_id s).

(** The methods of a cycle, each with the subtask through which the cycle goes. *)
Fixpoint links (start : string) (ms : list method) : list (method * string) :=
  match ms with
  | [] => []
  | m :: ms' => (m, match ms' with [] => start | m' :: _ => head m' end) :: links start ms'
  end.
Definition cycle_links (ms : list method) : list (method * string) :=
  match ms with
  | [] => []
  | m :: _ => links (head m) ms
  end.

Definition simple_cycle (d : domain_ast) (ms : list method) : Prop :=
  ms <> [] /\ incl ms (d_methods d) /\ NoDup (map head ms)
  /\ Forall (fun l => In (snd l) (subtask_names (fst l))) (cycle_links ms).

(** ** What a method does before and after a subtask *)
Fixpoint before (x : string) (l : list string) : list string :=
  match l with
  | [] => []
  | y :: l' => if String.eqb y x then [] else y :: before x l'
  end.
Fixpoint after (x : string) (l : list string) : list string :=
  match l with
  | [] => []
  | y :: l' => if String.eqb y x then l' else after x l'
  end.

(** Totally ordered subtasks: those before the first occurrence.  For partially
    ordered ones the search looks at nothing before the subtask. *)
Definition prefix_names (m : method) (x : string) : list string :=
  match htn_orderings (m_tn m) with
  | Total => before x (subtask_names m)
  | Partial _ => []
  end.

(** The task that an identifier stands for; a repeated identifier stands for
    its last task. *)
Definition denotes (m : method) (i y : string) : Prop :=
  exists l1 s l2, htn_subtasks (m_tn m) = l1 ++ s :: l2 /\ id_of s = Some i
    /\ sym_name (sub_task s) = y /\ Forall (fun s' => id_of s' <> Some i) l2.
(** [y] is ordered after [x]. *)
Definition follows (m : method) (x y : string) : Prop :=
  match htn_orderings (m_tn m) with
  | Total => In y (after x (subtask_names m))
  | Partial ords =>
    exists i j, (exists s, In s (htn_subtasks (m_tn m)) /\ id_of s = Some i /\ sym_name (sub_task s) = x)
      /\ clos_trans string (fun a b => In (a, b) ords) i j /\ denotes m j y
  end.

(** ** Classes of cycles, relative to a set of tasks taken to be nullable *)
Section Class.
Variable nulls : list string.

(** Nothing but nullable tasks before the step; a step whose method starts with
    the first task of the cycle also counts. *)
Definition quiet (start : string) (l : method * string) : Prop :=
  hd_error (prefix_names (fst l) (snd l)) = Some start
  \/ Forall (fun y => In y nulls) (prefix_names (fst l) (snd l)).
Definition silent (ms : list method) : Prop :=
  forall m, hd_error ms = Some m -> Forall (quiet (head m)) (cycle_links ms).
Definition trails (ms : list method) (y : string) : Prop :=
  exists l, In l (cycle_links ms) /\ follows (fst l) (snd l) y.

Inductive cycle_class (ms : list method) : nat -> Prop :=
| cc_recursive : ~ silent ms -> cycle_class ms 1
| cc_growing y : silent ms -> trails ms y -> ~ In y nulls -> cycle_class ms 2
| cc_empty : silent ms -> (forall y, ~ trails ms y) -> cycle_class ms 3
| cc_shrink y : silent ms -> trails ms y -> (forall z, trails ms z -> In z nulls) -> cycle_class ms 4.
End Class.

(** The class and the cycle of a reported recursion. *)
Definition class (r : recursion) : nat :=
  match r with
  | NonRecursive => 0
  | Recursive _ => 1
  | GrowingEmptyPrefix _ => 2
  | EmptyRecursion _ => 3
  | GrowAndShrink _ => 4
  end.
Definition cycle_of (r : recursion) : list (string * string) :=
  match r with
  | NonRecursive => []
  | Recursive c | GrowingEmptyPrefix c | EmptyRecursion c | GrowAndShrink c => c
  end.
(** The report ends with the first task again, paired with the last method. *)
Definition cycle_report (ms : list method) : list (string * string) :=
  match ms with
  | [] => []
  | m :: _ => map (fun m => (head m, sym_name (m_name m))) ms ++ [(head m, sym_name (m_name (last ms m)))]
  end.
