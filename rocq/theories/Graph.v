(** Stand-ins for the two petgraph functions used by the code base:
    [has_path_connecting] (generic_type_checker.rs 76) and [toposort(..).is_ok()]
    (generic_type_checker.rs 39, htn.rs 49).  petgraph is an external library;
    the stand-ins compute what its documentation promises (reachability along
    directed edges, absence of directed cycles).  That petgraph meets that
    contract is part of the trusted base; that the stand-ins do is proved in
    GraphProofs.v. *)
From Coq Require Import String Bool List.
Import ListNotations.
Open Scope list_scope.

(** A directed graph, given by its list of edges (GraphMap). *)
Definition edges := list (string * string).

Definition mem_str (x : string) (l : list string) : bool :=
  existsb (String.eqb x) l.

(** One round: add the targets of all edges that leave [seen]. *)
Definition expand (es : edges) (seen : list string) : list string :=
  fold_left (fun acc e =>
               if mem_str (fst e) acc && negb (mem_str (snd e) acc)
               then snd e :: acc else acc) es seen.

(** [length es] rounds reach everything reachable. *)
Fixpoint expand_n (n : nat) (es : edges) (seen : list string) : list string :=
  match n with
  | O => seen
  | S n' => expand_n n' es (expand es seen)
  end.

Definition reach_list (es : edges) (a : string) : list string :=
  expand_n (length es) es [a].

(** petgraph::algo::has_path_connecting(g, a, b, None). *)
Definition has_path (es : edges) (a b : string) : bool :=
  mem_str b (reach_list es a).

(** petgraph::algo::toposort(g, None).is_ok(). *)
Definition acyclicb (es : edges) : bool :=
  forallb (fun e => negb (has_path es (snd e) (fst e))) es.
