(** The task decomposition graph: src/semantic_analyzer/tdg.rs, and the
    metadata types of src/output/metadata.rs.

    Sets of indices (HashSet<usize>) are duplicate-free lists.  Wherever the
    code iterates over a hash container and the order could matter, the order
    is taken from a [hash_env]: an arbitrary choice of a permutation for each
    container.  Iterations whose body only computes a union or a universally /
    existentially quantified test over a local set are taken in list order. *)
From Coq Require Import String NArith Bool List Permutation.
From Verif Require Import Base Token Lexer Errors Ast Semantic Graph.
Import ListNotations.
Open Scope list_scope.
Open Scope nat_scope.
Open Scope outcome_scope.

(** Iteration orders of the hash containers (std::collections with
    RandomState): unspecified, but each iteration visits every element once. *)
Record hash_env := mkEnv {
  ho_tasks : nat -> list nat -> list nat;      (* edges_to_tasks[m] *)
  ho_methods : nat -> list nat -> list nat;    (* edges_from_tasks[t] *)
  ho_keys : list nat -> list nat;              (* keys of edges_from_tasks *)
  ho_decl : list task -> list task;            (* declared_tasks *)
  ho_ids : list string -> list string;         (* sets of subtask ids *)
  ho_names : list string -> list string        (* the set of nullable names *)
}.

Record hash_env_ok (he : hash_env) : Prop := mkEnvOk {
  ho_tasks_ok : forall m l, Permutation (ho_tasks he m l) l;
  ho_methods_ok : forall t l, Permutation (ho_methods he t l) l;
  ho_keys_ok : forall l, Permutation (ho_keys he l) l;
  ho_decl_ok : forall l, Permutation (ho_decl he l) l;
  ho_ids_ok : forall l, Permutation (ho_ids he l) l;
  ho_names_ok : forall l, Permutation (ho_names he l) l
}.

(** The environment that iterates in insertion order. *)
Definition env_id : hash_env :=
  mkEnv (fun _ l => l) (fun _ l => l) (fun l => l) (fun l => l) (fun l => l) (fun l => l).

(** HashSet<usize>. *)
Definition mem_nat (x : nat) (s : list nat) : bool := existsb (Nat.eqb x) s.
Definition add_nat (x : nat) (s : list nat) : list nat :=
  if mem_nat x s then s else s ++ [x].
Definition union_nat (s t : list nat) : list nat := fold_left (fun acc x => add_nat x acc) t s.
Definition subset_nat (s t : list nat) : bool := forallb (fun x => mem_nat x t) s.
Definition seteq_nat (s t : list nat) : bool := subset_nat s t && subset_nat t s.
Definition of_list_nat (l : list nat) : list nat := union_nat [] l.

(** HashSet<&str>. *)
Definition add_str (x : string) (s : list string) : list string :=
  if mem_str x s then s else s ++ [x].

(** tdg.rs 5-10 and 521-525 ([true] = TaskType::Compound).  [tg_from] and
    [tg_to] are edges_from_tasks and edges_to_tasks as tables indexed by task
    and by method. *)
Record tdg := mkTdg {
  tg_tasks : list (string * bool);
  tg_methods : list (string * htn);
  tg_from : list (list nat);
  tg_to : list (list nat)
}.

(** tdg.rs 394-401 before unwrap, and 72-79: first index of a name. *)
Fixpoint index_first (name : string) (l : list (string * bool)) : option nat :=
  match l with
  | [] => None
  | (n, _) :: l' =>
    if String.eqb n name then Some 0 else option_map S (index_first name l')
  end.
(** tdg.rs 28-32: the map task_indices keeps the last index of a name. *)
Fixpoint index_last (name : string) (l : list (string * bool)) : option nat :=
  match l with
  | [] => None
  | (n, _) :: l' =>
    match index_last name l' with
    | Some i => Some (S i)
    | None => if String.eqb n name then Some 0 else None
    end
  end.

(** Collect a list of optional indices; [None] panics. *)
Fixpoint all_some {A} (l : list (option A)) : outcome (list A) :=
  match l with
  | [] => Ok []
  | Some x :: l' => r <-- all_some l' ;; Ok (x :: r)
  | None :: _ => Panic PanicUndefined
  end.

(** Positions [i] of [l], counted from [k], whose element is [x]. *)
Fixpoint positions (k x : nat) (l : list nat) : list nat :=
  match l with
  | [] => []
  | y :: l' => (if Nat.eqb x y then [k] else []) ++ positions (S k) x l'
  end.

(** tdg.rs 15-22. *)
Definition task_list (d : domain_ast) : list (string * bool) :=
  map (fun t => (task_name t, true)) (d_tasks d)
  ++ map (fun a => (act_name a, false)) (d_actions d).

(** tdg.rs 13-69. *)
Definition tdg_new (d : domain_ast) : outcome tdg :=
  let tasks := task_list d in
  heads <-- all_some (map (fun m => index_last (sym_name (m_task m)) tasks) (d_methods d)) ;;
  to <-- (fix each (ms : list method) : outcome (list (list nat)) :=
            match ms with
            | [] => Ok []
            | m :: ms' =>
              ids <-- all_some (map (fun s => index_last (sym_name (sub_task s)) tasks)
                                    (htn_subtasks (m_tn m))) ;;
              r <-- each ms' ;; Ok (of_list_nat ids :: r)
            end) (d_methods d) ;;
  Ok (mkTdg tasks
            (map (fun m => (sym_name (m_name m), m_tn m)) (d_methods d))
            (map (fun i => positions 0 i heads) (seq 0 (length tasks)))
            to).

(** edges_from_tasks.get(t) (every index is a key) and edges_to_tasks.get(m). *)
Definition from_set (g : tdg) (t : nat) : list nat := nth t (tg_from g) [].
Definition to_set (g : tdg) (m : nat) : list nat := nth m (tg_to g) [].
Definition tdg_keys (g : tdg) : list nat := seq 0 (length (tg_tasks g)).
(** self.tasks[i].0 *)
Definition name_of (g : tdg) (i : nat) : string := fst (nth i (tg_tasks g) (""%string, false)).

Section Env.
Variable he : hash_env.

(** Iteration over edges_from_tasks[t], edges_to_tasks[m] and the keys. *)
Definition it_methods (g : tdg) (t : nat) : list nat := ho_methods he t (from_set g t).
Definition it_tasks (g : tdg) (m : nat) : list nat := ho_tasks he m (to_set g m).
Definition it_keys (g : tdg) : list nat := ho_keys he (tdg_keys g).

(** tdg.rs 96-114: breadth-first search. *)
Fixpoint bfs (fuel : nat) (g : tdg) (queue visited reach : list nat) : outcome (list nat) :=
  match queue with
  | [] => Ok reach
  | t :: queue' =>
    match fuel with
    | O => OutOfFuel
    | S f =>
      if mem_nat t visited then bfs f g queue' visited reach
      else
        let new := flat_map (it_tasks g) (it_methods g t) in
        bfs f g (queue' ++ new) (t :: visited) (union_nat reach new)
    end
  end.

(** tdg.rs 442-443, 440-441 and the sets of the loop. *)
Record nstate := mkN {
  ns_null : list nat;
  ns_unit : list (nat * list nat);
  ns_new : list nat;
  ns_newunit : list (nat * list nat);
  ns_cn : bool;
  ns_cu : bool
}.

Fixpoint assoc_nat (k : nat) (l : list (nat * list nat)) : option (list nat) :=
  match l with
  | [] => None
  | (k', v) :: l' => if Nat.eqb k k' then Some v else assoc_nat k l'
  end.
(** HashMap::insert. *)
Fixpoint insert_nat (k : nat) (v : list nat) (l : list (nat * list nat)) : list (nat * list nat) :=
  match l with
  | [] => [(k, v)]
  | (k', v') :: l' => if Nat.eqb k k' then (k, v) :: l' else (k', v') :: insert_nat k v l'
  end.

(** tdg.rs 404-417. *)
Definition null_base (g : tdg) : list nat :=
  filter (fun t => existsb (fun m => match to_set g m with [] => true | _ => false end)
                           (it_methods g t)) (it_keys g).

(** tdg.rs 419-439. *)
Definition unit_base (g : tdg) : list (nat * list nat) :=
  fold_left (fun acc (x : string * bool) =>
    if snd x then
      match index_first (fst x) (tg_tasks g) with
      | Some i =>
        insert_nat i
          (fold_left (fun v m => match to_set g m with [y] => add_nat y v | _ => v end)
                     (it_methods g i) [i]) acc
      | None => acc
      end
    else acc) (tg_tasks g) [].

(** tdg.rs 446-461. *)
Definition new_nullables (g : tdg) (st : nstate) : list nat :=
  fold_left (fun acc t =>
    if existsb (fun m =>
         forallb (fun x => match assoc_nat x (ns_unit st) with
                           | Some s => existsb (fun y => mem_nat y (ns_null st)) s
                           | None => false
                           end) (it_tasks g m)) (it_methods g t)
    then add_nat t acc else acc) (it_keys g) (ns_new st).

(** tdg.rs 476-488: the loop leaves the FIRST task that is not yet nullable in
    [not_nullable], also when there is a second one. *)
Definition not_nullable (g : tdg) (null : list nat) (m : nat) : option nat :=
  find (fun x => negb (mem_nat x null)) (it_tasks g m).

(** tdg.rs 465-490. *)
Definition unit_change (g : tdg) (st : nstate) (c : nat) (prev : list nat) : list nat :=
  let change :=
    fold_left (fun acc r => match assoc_nat r (ns_unit st) with
                            | Some s => union_nat acc s
                            | None => acc
                            end) prev prev in
  fold_left (fun acc m => match not_nullable g (ns_null st) m with
                          | Some x => add_nat x acc
                          | None => acc
                          end) (it_methods g c) change.

(** tdg.rs 444-512: one iteration of the while loop.  The flags are only ever
    cleared. *)
Definition null_step (g : tdg) (st : nstate) : nstate :=
  let new := new_nullables g st in
  let changes := map (fun cp => (fst cp, snd cp, unit_change g st (fst cp) (snd cp))) (ns_unit st) in
  let unchanged := existsb (fun x => seteq_nat (snd x) (snd (fst x))) changes in
  let newunit :=
    fold_left (fun acc x => if seteq_nat (snd x) (snd (fst x)) then acc
                            else insert_nat (fst (fst x)) (snd x) acc) changes (ns_newunit st) in
  let same := Nat.eqb (length new) (length (ns_null st)) in
  mkN (if same then ns_null st else union_nat (ns_null st) new)
      (map (fun cp => (fst cp, match assoc_nat (fst cp) newunit with
                               | Some s => union_nat (snd cp) s
                               | None => snd cp
                               end)) (ns_unit st))
      new newunit
      (if same then false else ns_cn st)
      (if unchanged then false else ns_cu st).

Fixpoint null_loop (fuel : nat) (g : tdg) (st : nstate) : outcome (list nat) :=
  if ns_cn st || ns_cu st then
    match fuel with
    | O => OutOfFuel
    | S f => null_loop f g (null_step g st)
    end
  else Ok (ns_null st).

Definition null_init (g : tdg) : nstate :=
  mkN (null_base g) (unit_base g) [] [] true true.

(** tdg.rs 403-518: the result is a set of names. *)
Definition compute_nullables (fuel : nat) (g : tdg) : outcome (list string) :=
  l <-- null_loop fuel g (null_init g) ;;
  Ok (fold_left (fun acc i => add_str (name_of g i) acc) l []).

(** tdg.rs 527-531. *)
Record reachable_set := mkReach {
  rs_primitives : list string;
  rs_compounds : list string;
  rs_nullable : bool
}.

(** tdg.rs 119-130: names of the reached tasks of one type. *)
Fixpoint reached_names (compound : bool) (k : nat) (l : list (string * bool)) (reach : list nat)
  : list string :=
  match l with
  | [] => []
  | (n, c) :: l' =>
    (if mem_nat k reach && Bool.eqb c compound then [n] else [])
    ++ reached_names compound (S k) l' reach
  end.

(** tdg.rs 71-136. *)
Definition reachable (fuel : nat) (g : tdg) (name : string) : outcome reachable_set :=
  match index_first name (tg_tasks g) with
  | None => Panic PanicUnwrap
  | Some i =>
    match nth i (tg_tasks g) (""%string, false) with
    | (n, false) => Ok (mkReach [n] [] false)
    | (_, true) =>
      reach <-- bfs fuel g [i] [] [i] ;;
      nulls <-- compute_nullables fuel g ;;
      Ok (mkReach (reached_names false 0 (tg_tasks g) reach)
                  (reached_names true 0 (tg_tasks g) reach)
                  (mem_str name nulls))
    end
  end.

(** metadata.rs 3-10. *)
Inductive recursion :=
| NonRecursive
| Recursive (cycle : list (string * string))
| EmptyRecursion (cycle : list (string * string))
| GrowingEmptyPrefix (cycle : list (string * string))
| GrowAndShrink (cycle : list (string * string)).

(** tdg.rs 394-401. *)
Definition get_task_index (g : tdg) (name : string) : outcome nat :=
  match index_first name (tg_tasks g) with
  | Some i => Ok i
  | None => Panic PanicUnwrap
  end.
Fixpoint get_task_indices (g : tdg) (names : list string) : outcome (list nat) :=
  match names with
  | [] => Ok []
  | n :: names' =>
    i <-- get_task_index g n ;; r <-- get_task_indices g names' ;; Ok (i :: r)
  end.

(** tdg.rs 259-268 / 332-341: the subtasks before and after the first
    occurrence of a name. *)
Fixpoint split_at (name : string) (l : list subtask) : option (list subtask * list subtask) :=
  match l with
  | [] => None
  | s :: l' =>
    if String.eqb (sym_name (sub_task s)) name then Some ([], l')
    else match split_at name l' with
         | Some (a, b) => Some (s :: a, b)
         | None => None
         end
  end.

(** tdg.rs 275-287: id_to_task_mapping (insert replaces) and task_occurances. *)
Definition id_to_task (subtasks : list subtask) (id : string) : option string :=
  match find (fun s => match sub_id s with
                       | Some i => String.eqb (sym_name i) id
                       | None => false
                       end) (rev subtasks) with
  | Some s => Some (sym_name (sub_task s))
  | None => None
  end.
Definition occurrences (subtasks : list subtask) (name : string) : list string :=
  fold_left (fun acc s => match sub_id s with
                          | Some i => if String.eqb (sym_name (sub_task s)) name
                                      then add_str (sym_name i) acc else acc
                          | None => acc
                          end) subtasks [].

(** tdg.rs 289-297 / 362-370: adjacency.get(id) as a set of ids. *)
Definition adjacent (ords : list (string * string)) (id : string) : list string :=
  fold_left (fun acc e => if String.eqb (fst e) id then add_str (snd e) acc else acc) ords [].

(** str::contains. *)
Definition str_contains (hay needle : string) : bool :=
  match String.index 0 needle hay with Some _ => true | None => false end.

(** tdg.rs 301-315.  [stack] has its top at the head. *)
Fixpoint prefix_loop (fuel : nat) (subtasks : list subtask) (ords : list (string * string))
         (occ stack prefix : list string) : outcome (list string) :=
  match stack with
  | [] => Ok prefix
  | t :: stack' =>
    match fuel with
    | O => OutOfFuel
    | S f =>
      let hits := flat_map (fun out => filter (fun o => str_contains out o) (ho_ids he occ))
                           (ho_ids he (adjacent ords t)) in
      match hits, id_to_task subtasks t with
      | [], _ => prefix_loop f subtasks ords occ stack' prefix
      | _, None => Panic PanicUnwrap
      | _, Some name =>
        prefix_loop f subtasks ords occ (map (fun _ => t) hits ++ stack')
                    (prefix ++ map (fun _ => name) hits)
      end
    end
  end.

(** tdg.rs 374-382. *)
Fixpoint suffix_loop (fuel : nat) (ords : list (string * string))
         (stack suffix : list string) : outcome (list string) :=
  match stack with
  | [] => Ok suffix
  | t :: stack' =>
    match fuel with
    | O => OutOfFuel
    | S f =>
      let out := ho_ids he (adjacent ords t) in
      suffix_loop f ords (rev out ++ stack') (suffix ++ out)
    end
  end.

(** tdg.rs 316-322 / 383-389. *)
Fixpoint map_ids (g : tdg) (subtasks : list subtask) (ids : list string) : outcome (list nat) :=
  match ids with
  | [] => Ok []
  | id :: ids' =>
    match id_to_task subtasks id with
    | None => Panic PanicUnwrap
    | Some name =>
      i <-- get_task_index g name ;; r <-- map_ids g subtasks ids' ;; Ok (i :: r)
    end
  end.

(** tdg.rs 254-325.  [subtasks.len() - 1] wraps (release) or overflows (debug)
    on an empty method; both end in a panic. *)
Definition get_prefix (fuel : nat) (g : tdg) (t m : nat) : outcome (list nat) :=
  let tn := snd (nth m (tg_methods g) (""%string, mkHtn [] None Total None)) in
  let name := name_of g t in
  match htn_orderings tn with
  | Total =>
    match split_at name (htn_subtasks tn) with
    | Some (before, _) => get_task_indices g (map (fun s => sym_name (sub_task s)) before)
    | None => Panic PanicUndefined
    end
  | Partial ords =>
    if negb (Nat.eqb (S (length ords)) (length (htn_subtasks tn))) then Panic PanicAssert
    else
      let occ := occurrences (htn_subtasks tn) name in
      ids <-- prefix_loop fuel (htn_subtasks tn) ords occ (rev (ho_ids he occ)) [] ;;
      map_ids g (htn_subtasks tn) ids
  end.

(** tdg.rs 327-392. *)
Definition get_suffix (fuel : nat) (g : tdg) (t m : nat) : outcome (list nat) :=
  let tn := snd (nth m (tg_methods g) (""%string, mkHtn [] None Total None)) in
  let name := name_of g t in
  match htn_orderings tn with
  | Total =>
    match split_at name (htn_subtasks tn) with
    | Some (_, after) => get_task_indices g (map (fun s => sym_name (sub_task s)) after)
    | None => Panic PanicUndefined
    end
  | Partial ords =>
    if negb (Nat.eqb (S (length ords)) (length (htn_subtasks tn))) then Panic PanicAssert
    else
      let occ := occurrences (htn_subtasks tn) name in
      ids <-- suffix_loop fuel ords (rev (ho_ids he occ)) [] ;;
      map_ids g (htn_subtasks tn) ids
  end.

(** A path of the search: (task, method) pairs, oldest first. *)
Definition path := list (nat * nat).

(** tdg.rs 157-166: the part of the path from the first visit of [t]. *)
Fixpoint cycle_from (t : nat) (p : path) : option path :=
  match p with
  | [] => None
  | (t', m) :: p' => if Nat.eqb t' t then Some p else cycle_from t p'
  end.

(** tdg.rs 170-187: over consecutive elements of the cyclic path; [m] is the
    method of the previous element.  Returns (is_epsilon_prefix, suffix). *)
Fixpoint cycle_context (fuel : nat) (g : tdg) (null : list nat) (new_task m : nat) (rest : path)
         (eps : bool) (suffix : list nat) : outcome (bool * list nat) :=
  match rest with
  | [] => Ok (eps, suffix)
  | (t, m') :: rest' =>
    prefix <-- get_prefix fuel g t m ;;
    let eps' :=
      match prefix with
      | [] => eps
      | x :: _ => if Nat.eqb x new_task then eps
                  else eps && forallb (fun y => mem_nat y null) prefix
      end in
    suf <-- get_suffix fuel g t m ;;
    cycle_context fuel g null new_task m' rest' eps' (suffix ++ suf)
  end.

(** tdg.rs 189-197. *)
Definition cycle_names (g : tdg) (c : path) : list (string * string) :=
  map (fun tm => (name_of g (fst tm), fst (nth (snd tm) (tg_methods g) (""%string, mkHtn [] None Total None)))) c.

(** tdg.rs 198-237. *)
Definition update_recursion (null : list nat) (eps : bool) (suffix : list nat)
           (names : list (string * string)) (r : recursion) : recursion :=
  if eps then
    match suffix with
    | [] => match r with GrowAndShrink _ => r | _ => EmptyRecursion names end
    | _ =>
      let nullable_suffix := forallb (fun x => mem_nat x null) suffix in
      match r with
      | GrowAndShrink _ => r
      | EmptyRecursion _ => if nullable_suffix then GrowAndShrink names else r
      | _ => if nullable_suffix then GrowAndShrink names else GrowingEmptyPrefix names
      end
    end
  else match r with NonRecursive => Recursive names | _ => r end.

(** tdg.rs 156-249: the tasks of the current method; extends the stack and
    updates the classification. *)
Fixpoint visit_tasks (fuel : nat) (g : tdg) (null : list nat) (p : path) (m : nat)
         (tasks : list nat) (stack : list path) (r : recursion)
  : outcome (list path * recursion) :=
  match tasks with
  | [] => Ok (stack, r)
  | t :: tasks' =>
    match cycle_from t p with
    | Some c =>
      let c' := c ++ [(t, m)] in
      match c' with
      | [] => visit_tasks fuel g null p m tasks' stack r
      | (_, m0) :: rest =>
        es <-- cycle_context fuel g null t m0 rest true [] ;;
        visit_tasks fuel g null p m tasks' stack
          (update_recursion null (fst es) (snd es) (cycle_names g c') r)
      end
    | None =>
      visit_tasks fuel g null p m tasks'
        (fold_left (fun st m' => (p ++ [(t, m')]) :: st) (it_methods g t) stack) r
    end
  end.

(** tdg.rs 153-251. *)
Fixpoint recursion_loop (fuel : nat) (lfuel : nat) (g : tdg) (null : list nat)
         (stack : list path) (r : recursion) : outcome recursion :=
  match stack with
  | [] => Ok r
  | p :: stack' =>
    match fuel with
    | O => OutOfFuel
    | S f =>
      let m := snd (last p (0, 0)) in
      sr <-- visit_tasks lfuel g null p m (it_tasks g m) stack' r ;;
      recursion_loop f lfuel g null (fst sr) (snd sr)
    end
  end.

(** tdg.rs 144-152. *)
Definition initial_stack (g : tdg) : list path :=
  fold_left (fun st t => fold_left (fun st m => [(t, m)] :: st) (it_methods g t) st)
            (it_keys g) [].

(** tdg.rs 138-252. *)
Definition get_recursion_type (fuel lfuel : nat) (g : tdg) (nullable_symbols : list string)
  : outcome recursion :=
  null <-- get_task_indices g nullable_symbols ;;
  recursion_loop fuel lfuel g null (initial_stack g) NonRecursive.

(** domain_analyzer.rs 200-210: one warning per declared task without
    primitive refinement. *)
Fixpoint refinement_warnings (fuel : nat) (g : tdg) (tasks : list task) : outcome (list warning) :=
  match tasks with
  | [] => Ok []
  | t :: tasks' =>
    r <-- reachable fuel g (task_name t) ;;
    ws <-- refinement_warnings fuel g tasks' ;;
    Ok (match rs_primitives r with
        | [] => if rs_nullable r then ws
                else NoPrimitiveRefinement (task_name t) (task_pos t) :: ws
        | _ => ws
        end)
  end.

(** domain_analyzer.rs 19-220. *)
Definition verify_domain (fuel : nat) (d : domain_ast) : outcome symbol_table :=
  check_domain d ;;;
  g <-- tdg_new d ;;
  ws <-- refinement_warnings fuel g (ho_decl he (d_tasks d)) ;;
  Ok (mkTable ws (declared_constants d) (d_preds d) (d_tasks d) (d_actions d) (d_types d)).

(** metadata.rs 53-60 (counts without the u32 cast). *)
Record metadata := mkMeta {
  md_recursion : recursion;
  md_nullables : list string;
  md_domain_name : string;
  md_actions : nat;
  md_tasks : nat;
  md_methods : nat
}.

(** lib.rs 64-76. *)
Definition domain_metadata (fuel lfuel : nat) (d : domain_ast) : outcome metadata :=
  g <-- tdg_new d ;;
  nulls <-- compute_nullables fuel g ;;
  r <-- get_recursion_type fuel lfuel g nulls ;;
  Ok (mkMeta r (ho_names he nulls) "" (length (d_actions d)) (length (d_tasks d))
             (length (d_methods d))).

End Env.
