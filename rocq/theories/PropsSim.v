(** Property theorems about what verification and metadata do not depend on:
    layout (C42), the choice of names (C43), and anything the JSON export does
    not show (C44).  Specification: SpecSim.v. *)
From Coq Require Import String Ascii NArith Bool List Lia PeanoNat Permutation.
From Verif Require Import Base Token Lexer Errors Ast Parser Graph Semantic Tdg Api Json StrFacts SpecLex LexProofs3 PropsParse AstRel
  ParserProofs ParserStream PropsLex SpecIo PropsSem PropsIo SpecSim SimSem SimTdg SimTop.
Import ListNotations.
Open Scope list_scope.
Open Scope nat_scope.

Section S.
Context `{Unicode}.
Variable he : hash_env.
Hypothesis Hhe : hash_env_ok he.

(** ** C42 *)
(** Documents with the same tokens on lines related by [RL]. *)
Definition same_tokens (RL : N -> N -> Prop) (s s' : string) : Prop :=
  streams_rel RL (lex_new s) (lex_new s').

Theorem C42_verify_tokens : forall (RL : N -> N -> Prop) n dom dom' prob prob',
  RL 1%N 1%N -> same_tokens RL dom dom' -> opt_rel (same_tokens RL) prob prob' ->
  result_sim ren_id RL (warnings_sim ren_id RL) (verify he n dom prob) (verify he n dom' prob').
Proof.
  intros RL n dom dom' prob prob' H1 Hd Hp. apply verify_sim; auto using ren_id_ok.
  - apply doc_layout, parse_stream; auto.
  - eapply opt_impl; [exact Hp|]. intros s s' Hs. apply doc_layout, parse_stream; auto.
Qed.
Theorem C42_metadata_tokens : forall (RL : N -> N -> Prop) n l dom dom',
  RL 1%N 1%N -> same_tokens RL dom dom' ->
  result_sim ren_id RL eq (get_metadata he n l dom) (get_metadata he n l dom').
Proof.
  intros RL n l dom dom' H1 Hd.
  assert (doc_sim ren_id RL n dom dom') as Hs by (apply doc_layout, parse_stream; auto).
  pose proof (get_metadata_sim ren_id RL ren_id_ok he Hhe n l dom dom' Hs (fun x => eq_refl)) as Hm.
  destruct Hm as [[r nu nm a t m] [r' nu' nm' a' t' m'] ([Hr Hn Hc Hnm] & nulls & E1 & E2)|e e' He|p|]; constructor; auto.
  simpl in *. rewrite recursion_id in Hr. replace (map (fun x => x) nulls) with nulls in E2 by (symmetry; apply map_id).
  injection Hc as <- <- <-. congruence.
Qed.
(** Inserting blanks, line breaks and comments after a delimiter. *)
Theorem C42_verify_gap_in_domain : forall n q w s prob,
  clean q -> str_last delimiter q -> Gap w ->
  let RL := fun x y => (x <= y <= x + count_nl w)%N in
  result_sim ren_id RL (warnings_sim ren_id RL)
    (verify he n (q ++ s)%string prob) (verify he n (q ++ w ++ s)%string prob).
Proof.
  intros n q w s prob Hc Hl Hw RL. apply verify_sim; auto using ren_id_ok.
  - apply doc_layout, parse_insert_gap; auto.
  - destruct prob as [p|]; constructor. apply doc_layout, parse_stream; [unfold RL; lia|].
    intros k. induction (stream k (lex_new p)) as [|[o x] l IH]; constructor; auto.
    split; [destruct o as [t|[t lx ln]|y|]; constructor|destruct o; simpl; auto]; unfold RL; lia.
Qed.
Theorem C42_verify_gap_in_problem : forall n dom q w s,
  clean q -> str_last delimiter q -> Gap w ->
  let RL := fun x y => (x <= y <= x + count_nl w)%N in
  result_sim ren_id RL (warnings_sim ren_id RL)
    (verify he n dom (Some (q ++ s)%string)) (verify he n dom (Some (q ++ w ++ s)%string)).
Proof.
  intros n dom q w s Hc Hl Hw RL. apply verify_sim; auto using ren_id_ok.
  - apply doc_layout, parse_stream; [unfold RL; lia|].
    intros k. induction (stream k (lex_new dom)) as [|[o x] l IH]; constructor; auto.
    split; [destruct o as [t|[t lx ln]|y|]; constructor|destruct o; simpl; auto]; unfold RL; lia.
  - constructor. apply doc_layout, parse_insert_gap; auto.
Qed.
Theorem C42_metadata_gap : forall n l q w s,
  clean q -> str_last delimiter q -> Gap w ->
  result_sim ren_id (fun x y => (x <= y <= x + count_nl w)%N) eq
    (get_metadata he n l (q ++ s)%string) (get_metadata he n l (q ++ w ++ s)%string).
Proof.
  intros n l q w s Hc Hl Hw. apply C42_metadata_tokens; [lia|]. apply insert_gap_rel; auto.
Qed.

(** ** C43 *)
Theorem C43_verify : forall rn n dom dom' d, renaming_ok rn ->
  parse n dom = Ok (ADomain d) -> parse n dom' = Ok (ADomain (ren_domain rn d)) ->
  result_sim rn eq (warnings_sim rn eq) (verify he n dom None) (verify he n dom' None).
Proof.
  intros rn n dom dom' d Hrn E E'. apply verify_sim; auto; [|constructor].
  unfold doc_sim. rewrite E, E'. apply ok_sim, at_domain, ren_domain_sim.
Qed.
Theorem C43_verify_problem : forall rn n dom dom' d prob prob' p, renaming_ok rn ->
  parse n dom = Ok (ADomain d) -> parse n dom' = Ok (ADomain (ren_domain rn d)) ->
  parse n prob = Ok (AProblem p) -> parse n prob' = Ok (AProblem (ren_problem rn p)) ->
  result_sim rn eq (warnings_sim rn eq) (verify he n dom (Some prob)) (verify he n dom' (Some prob')).
Proof.
  intros rn n dom dom' d prob prob' p Hrn E E' Ep Ep'. apply verify_sim; auto; [|constructor].
  - unfold doc_sim. rewrite E, E'. apply ok_sim, at_domain, ren_domain_sim.
  - unfold doc_sim. rewrite Ep, Ep'. apply ok_sim, at_problem, ren_problem_sim.
Qed.
(** Subtask ids keep their names. *)
Theorem C43_metadata : forall rn n l dom dom' d, renaming_ok rn -> (forall x, fI rn x = x) ->
  parse n dom = Ok (ADomain d) -> parse n dom' = Ok (ADomain (ren_domain rn d)) ->
  result_sim rn eq (metadata_sim rn) (get_metadata he n l dom) (get_metadata he n l dom').
Proof.
  intros rn n l dom dom' d Hrn Hid E E'.
  assert (doc_sim rn eq n dom dom') as Hs.
  { unfold doc_sim. rewrite E, E'. apply ok_sim, at_domain, ren_domain_sim. }
  pose proof (get_metadata_sim rn eq Hrn he Hhe n l dom dom' Hs Hid) as Hm.
  destruct Hm as [m m' (Hm & _)|e e' He|p|]; constructor; auto.
Qed.

(** ** C44 *)
Context `{F : Floats}.
Hypothesis HF : floats_ok F.
Lemma same_text swap swap' n dom dom' prob prob' text :
  to_json swap n dom prob = Ok text -> to_json swap' n dom' prob' = Ok text ->
  exists d d', parse n dom = Ok (ADomain d) /\ parse n dom' = Ok (ADomain d')
    /\ domain_sim ren_id eq d d' /\ d_tasks d = d_tasks d'
    /\ opt_rel (fun s s' => exists p p', parse n s = Ok (AProblem p) /\ parse n s' = Ok (AProblem p')
                                         /\ problem_sim ren_id eq p p') prob prob'.
Proof.
  intros E E'. destruct (C33_text_determines_trees HF swap swap' n n dom dom' prob prob' text E E') as (d & d' & Ed & Ed' & Ev & Hp).
  exists d, d'. destruct (domain_value_sim d d' Ev) as [Hs Ht]. repeat (split; [assumption|]).
  destruct prob as [s|], prob' as [s'|]; try contradiction; constructor.
  destruct Hp as (p & p' & Ep & Ep' & Hv). exists p, p'. repeat (split; [assumption|]). apply problem_value_sim; auto.
Qed.
Theorem C44_verify : forall swap swap' n dom dom' prob prob' text,
  to_json swap n dom prob = Ok text -> to_json swap' n dom' prob' = Ok text ->
  verify he n dom prob = verify he n dom' prob'.
Proof.
  intros swap swap' n dom dom' prob prob' text E E'.
  destruct (same_text _ _ _ _ _ _ _ _ E E') as (d & d' & Ed & Ed' & Hs & Ht & Hp).
  apply (result_eq (Forall2 (warning_sim ren_id eq))); [apply warnings_eq|].
  unfold verify, parse_as_domain. rewrite Ed, Ed'. cbn [obind].
  eapply bind_sim.
  { apply (verify_domain_list_sim ren_id eq ren_id_ok he Hhe d d' n Hs). rewrite Ht. apply Forall2_refl'.
    intros t. constructor; auto. apply vars_refl. }
  intros tb tb' Htb. destruct Hp as [|s s' (p & p' & Ep & Ep' & Hp)]; [constructor; apply Htb|].
  unfold parse_as_problem. rewrite Ep, Ep'. cbn [obind]. apply verify_problem_sim; auto using ren_id_ok.
Qed.
Theorem C44_metadata : forall swap swap' n l dom dom' prob prob' text,
  to_json swap n dom prob = Ok text -> to_json swap' n dom' prob' = Ok text ->
  get_metadata he n l dom = get_metadata he n l dom'.
Proof.
  intros swap swap' n l dom dom' prob prob' text E E'.
  destruct (same_text _ _ _ _ _ _ _ _ E E') as (d & d' & Ed & Ed' & Hs & _ & _).
  assert (doc_sim ren_id eq n dom dom') as Hdoc.
  { unfold doc_sim. rewrite Ed, Ed'. apply ok_sim, at_domain; auto. }
  pose proof (get_metadata_sim ren_id eq ren_id_ok he Hhe n l dom dom' Hdoc (fun x => eq_refl)) as Hm.
  revert Hm. apply result_eq. intros [r nu nm a t m] [r' nu' nm' a' t' m'] ([Hr Hn Hc Hnm] & nulls & E1 & E2).
  simpl in *. rewrite recursion_id in Hr. replace (map (fun x => x) nulls) with nulls in E2 by (symmetry; apply map_id).
  injection Hc as <- <- <-. congruence.
Qed.
End S.

Definition sim_theorems := (
  @C42_verify_tokens,
  @C42_metadata_tokens,
  @C42_verify_gap_in_domain,
  @C42_verify_gap_in_problem,
  @C42_metadata_gap,
  @C43_verify,
  @C43_verify_problem,
  @C43_metadata,
  @C44_verify,
  @C44_metadata).

(** ** Concrete cases *)
Open Scope string_scope.
(** A method with a partial order between its two subtasks. *)
Definition loop_dom (i j : string) : string :=
  "(define (domain d) (:task t :parameters ()) (:action a :parameters ())" ++ nl ++
  " (:method m :parameters () :task (t) :subtasks (and (" ++ i ++ " (t)) (" ++ j ++ " (a)))" ++
  " :ordering (and (< " ++ i ++ " " ++ j ++ "))))".
(** Exchanges two pairs of names. *)
Definition swap4 (a b c d x : string) : string :=
  if String.eqb x a then b else if String.eqb x b then a else
  if String.eqb x c then d else if String.eqb x d then c else x.
Lemma swap4_inj : injective (swap4 "x" "t1" "y" "t12").
Proof.
  intros x y. unfold swap4.
  repeat match goal with |- context [String.eqb x ?s] => destruct (String.eqb_spec x s); [subst x|] end;
  repeat match goal with |- context [String.eqb y ?s] => destruct (String.eqb_spec y s); [subst y|] end;
  intros E; vm_compute in E; congruence.
Qed.
Definition ren_ids : renaming :=
  mkRen (fun x => x) (fun x => x) (fun x => x) (fun x => x) (fun x => x) (swap4 "x" "t1" "y" "t12").
Lemma loops {he} f subs ords occ : forall fuel t stack prefix,
  flat_map (fun out => filter (fun o => str_contains out o) (ho_ids he occ)) (ho_ids he (adjacent ords t)) <> [] ->
  id_to_task subs t = Some f -> prefix_loop he fuel subs ords occ (t :: stack) prefix = OutOfFuel.
Proof.
  induction fuel as [|n IH]; intros t stack prefix Hh Ht; cbn [prefix_loop]; auto.
  destruct (flat_map _ _) as [|h hs] eqn:Eh; [congruence|]. rewrite Ht. cbn [map app]. apply IH; auto. congruence.
Qed.
(** Subtask ids are compared as substrings: a consistent renaming of them
    turns an answer into an endless loop. *)
Theorem C43_metadata_ids_refuted : exists rn d md, renaming_ok rn
  /\ @parse uni0 300 (loop_dom "x" "y") = Ok (ADomain d)
  /\ @parse uni0 300 (loop_dom "t1" "t12") = Ok (ADomain (ren_domain rn d))
  /\ (forall l, @get_metadata uni0 env_id 300 l (loop_dom "x" "y") = Ok md \/ l < 3)
  /\ (forall l, @get_metadata uni0 env_id 300 l (loop_dom "t1" "t12") = OutOfFuel).
Proof.
  exists ren_ids. eexists. eexists. split.
  { constructor; intros x y E; try exact E. apply swap4_inj; auto. }
  split; [vm_compute; reflexivity|]. split; [vm_compute; reflexivity|]. split.
  - intros [|[|[|l]]]; [right; lia|right; lia|right; lia|]. left. vm_compute. reflexivity.
  - intros l. unfold get_metadata, parse_as_domain.
    match goal with |- context [parse ?n ?s] => let p := eval vm_compute in (@parse uni0 n s) in
      replace (@parse uni0 n s) with p by (vm_compute; reflexivity) end.
    cbn [obind]. cbv -[prefix_loop].
    match goal with |- context [prefix_loop ?h l ?a ?b ?c ?e ?p] => rewrite (@loops h "t" a b c l) end; try reflexivity.
    vm_compute. discriminate.
Qed.
Example C42_example :
  let q := "(define (domain d) (:predicates (p) " in
  let w := " ; again" ++ nl ++ nl in
  let s := "(p)))" in
  clean q /\ str_last delimiter q /\ Gap w
  /\ @verify uni0 env_id 300 (q ++ s) None = Err (ESem (DuplicatePredicate (mkDup "p" 1 1)))
  /\ @verify uni0 env_id 300 (q ++ w ++ s) None = Err (ESem (DuplicatePredicate (mkDup "p" 1 3))).
Proof.
  split; [intros x y E; exfalso; do 40 (destruct x as [|? x]; [discriminate|]); discriminate|].
  split; [simpl; unfold delimiter, ws; auto|]. split.
  - apply (gap_ws " "); [unfold ws; auto|]. apply (gap_comment " again" nl); [|apply (gap_ws "010"); [vm_compute; auto|constructor]].
    simpl. intuition discriminate.
  - split; vm_compute; reflexivity.
Qed.
(** All the names of [dom1] and [prob1] are changed. *)
Definition prime (x : string) : string := x ++ "_".
Lemma prime_inj : injective prime.
Proof.
  intros x. induction x as [|c x IH]; intros [|e y] E; simpl in E; auto; injection E; intros; subst; f_equal; auto.
  - destruct y; discriminate.
  - destruct x; discriminate.
Qed.
Definition ren_all : renaming := mkRen prime prime prime prime prime prime.
Definition dom1' : string :=
  "(define (domain d)" ++ nl ++
  " (:requirements :hierarchy)" ++ nl ++
  " (:types a_ b_ - object_)" ++ nl ++
  " (:predicates (p_ ?x_ - a_) (q_))" ++ nl ++
  " (:task t_ :parameters (?x_ - a_))" ++ nl ++
  " (:method m_ :parameters (?x_ - a_)" ++ nl ++
  "   :task (t_ ?x_) :precondition (and (p_ ?x_) (not (q_)))" ++ nl ++
  "   :ordered-subtasks (and (c_ ?x_) (c_ ?x_)))" ++ nl ++
  " (:action c_ :parameters (?y_ - a_) :effect (q_)))" ++ nl.
Definition prob1' : string :=
  "(define (problem p1) (domain d)" ++ nl ++
  " (:objects x_ - a_)" ++ nl ++
  " (:htn :subtasks (and (t1_ (t_ x_)) (t2_ (t_ x_))) :ordering (< t1_ t2_))" ++ nl ++
  " (:init (p_ x_)))" ++ nl.
Example C43_example : exists d p, renaming_ok ren_all
  /\ @parse uni0 300 dom1 = Ok (ADomain d) /\ @parse uni0 300 dom1' = Ok (ADomain (ren_domain ren_all d))
  /\ @parse uni0 300 prob1 = Ok (AProblem p) /\ @parse uni0 300 prob1' = Ok (AProblem (ren_problem ren_all p)).
Proof.
  eexists. eexists. split; [constructor; apply prime_inj|]. split; [vm_compute; reflexivity|].
  split; [vm_compute; reflexivity|]. split; [vm_compute; reflexivity|]. vm_compute. reflexivity.
Qed.
Example C43_metadata_example : exists d, (forall x, fI (mkRen prime prime prime prime prime (fun x => x)) x = x)
  /\ @parse uni0 300 (loop_dom "x" "y") = Ok (ADomain d)
  /\ @parse uni0 300 ("(define (domain d) (:task t_ :parameters ()) (:action a_ :parameters ())" ++ nl ++
  " (:method m_ :parameters () :task (t_) :subtasks (and (x (t_)) (y (a_))) :ordering (and (< x y))))")
    = Ok (ADomain (ren_domain (mkRen prime prime prime prime prime (fun x => x)) d)).
Proof. eexists. split; [reflexivity|]. split; [vm_compute; reflexivity|]. vm_compute. reflexivity. Qed.
(** Different documents, the same JSON, the same rejection. *)
Example C44_example : exists t e,
  @to_json uni0 flo0 false 300 (dom_with "(:action z :parameters () :effect (probabilistic 0.5 (zz)))") None = Ok t
  /\ @to_json uni0 flo0 false 300 (dom_with "(:action z :parameters()  :effect (probabilistic 0.50 (zz))) ") None = Ok t
  /\ run (dom_with "(:action z :parameters () :effect (probabilistic 0.5 (zz)))") None = Err e.
Proof. do 2 eexists. split; [vm_compute; reflexivity|]. split; [vm_compute; reflexivity|]. vm_compute. reflexivity. Qed.
