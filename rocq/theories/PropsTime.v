(** Property theorems about the number of rounds of the analyser's loops: C63.
    In the model every loop of the program takes the same argument, the number
    of rounds it may make; the result [OutOfFuel] says that some loop needs
    more.  Specification of the chains of decompositions: SpecTime.v. *)
From Coq Require Import String Ascii NArith Bool List Lia PeanoNat Permutation Relations.
From Verif Require Import Base Token Lexer Errors Ast Parser Graph Tdg Semantic Api StrFacts SpecLex LexProofs LexProofs2 LexProofs3
  ParserProofs ParserStream SpecGrammar GrammarTop ParserTerm SpecPrint PrintSound PrintText PropsLex PropsParse SpecSem SemDomain SemProblem
  GraphProofs TdgGraph TdgReach TdgNull SpecTdg SpecRec SpecTime TdgTop VerifyTop TdgRec TdgRecTop TdgTime TimeTop PropsTdg.
Import ListNotations.
Open Scope list_scope.
Open Scope nat_scope.
Open Scope outcome_scope.

Section Time.
Context `{Unicode}.
Variable he : hash_env.
Hypothesis Hhe : hash_env_ok he.

Lemma bound_length k dom d : parse k dom = Ok (ADomain d) -> verify_bound d <= String.length dom.
Proof.
  intros E. apply domain_reads in E as [Hw _]. unfold verify_bound. destruct (tdg_new d) as [g| | |] eqn:Eg; try lia.
  apply bound_weight in Eg. lia.
Qed.

(** ** Verification: at most as many rounds as the document has bytes *)
Theorem C63_verify_rounds : forall dom prob n,
  str_last delimiter dom -> String.length dom < n ->
  (forall s, prob = Some s -> str_last delimiter s /\ String.length s < n) ->
  verify he n dom prob <> OutOfFuel.
Proof.
  intros dom prob n Hd Hn Hp E. pose proof (C08_terminates dom n Hd Hn) as Ht. unfold verify, parse_as_domain in E.
  destruct (parse n dom) as [[d|p]|e|p|] eqn:Ed; cbn [obind] in E; try discriminate; [|congruence].
  pose proof (bound_length _ _ _ Ed) as Hb. destruct (check_domain d) as [[]|e|q|] eqn:Ec.
  - destruct (verify_domain_total he d n Hhe ltac:(lia) Ec) as (g & _ & Ev). rewrite Ev in E. cbn [obind] in E.
    destruct prob as [s|]; [|discriminate]. destruct (Hp s eq_refl) as [Hs Hl]. pose proof (C08_terminates s n Hs Hl) as Ht'.
    unfold parse_as_problem in E. destruct (parse n s) as [[d'|p]| | |] eqn:Ep; cbn [obind] in E; try discriminate; [|congruence].
    rewrite verify_problem_check in E.
    match type of E with context [check_problem d ?w p] => destruct (check_problem_calm d w p) as [_ C]; [apply parse_wf in Ep as [Hw _]; auto|];
      destruct (check_problem d w p); cbn [obind] in E; congruence end.
  - assert (verify_domain he n d = Err e) as Ev by (apply verify_domain_err; auto). rewrite Ev in E. discriminate.
  - assert (verify_domain he n d = Panic q) as Ev by (apply verify_domain_panic; auto). rewrite Ev in E. discriminate.
  - eapply check_domain_fuel; eauto.
Qed.
Lemma accepted_verified k dom d n : parse k dom = Ok (ADomain d) -> domain_ok d -> String.length dom <= n ->
  exists ws, verify he n dom None = Ok ws.
Proof.
  intros E Hok Hn. pose proof (bound_length _ _ _ E) as Hb. apply domain_reads in E as [_ Hp]. unfold verify, parse_as_domain.
  rewrite (Hp n Hn). cbn [obind]. apply check_domain_ok in Hok.
  destruct (verify_domain_total he d n Hhe ltac:(lia) Hok) as (g & _ & ->). cbn [obind]. eauto.
Qed.

(** ** Metadata: one round for every chain of decompositions *)
Lemma metadata_split n lf dom d md : parse n dom = Ok (ADomain d) -> get_metadata he n lf dom = Ok md ->
  exists g nulls null r, tdg_new d = Ok g /\ compute_nullables he n g = Ok nulls /\ get_task_indices g nulls = Ok null
    /\ recursion_loop he n lf g null (initial_stack he g) NonRecursive = Ok r
    /\ md = mkMeta r (ho_names he nulls) "" (length (d_actions d)) (length (d_tasks d)) (length (d_methods d)).
Proof.
  intros Ep E. unfold get_metadata, parse_as_domain in E. rewrite Ep in E. cbn [obind] in E. unfold domain_metadata in E.
  apply bind_ok in E as (g & Eg & E). apply bind_ok in E as (nulls & En & E). apply bind_ok in E as (r & Er & E).
  unfold get_recursion_type in Er. apply bind_ok in Er as (null & Ei & Er). injection E as <-. exists g, nulls, null, r. auto.
Qed.
Lemma metadata_parsed n lf dom md m d : get_metadata he n lf dom = Ok md -> parse m dom = Ok (ADomain d) -> parse n dom = Ok (ADomain d).
Proof.
  intros E Ep. unfold get_metadata, parse_as_domain in E. destruct (parse n dom) as [a|e|p|] eqn:E1; cbn [obind] in E; try discriminate.
  rewrite <- (parse_mono n (n + m)) in E1 by (try lia; congruence). rewrite <- (parse_mono m (n + m)) in Ep by (try lia; congruence).
  congruence.
Qed.

Theorem C63_metadata_at_least : forall m n lf dom d md L,
  parse m dom = Ok (ADomain d) -> distinct_names d -> get_metadata he n lf dom = Ok md ->
  NoDup L -> Forall (method_path d) L -> length L <= n.
Proof.
  intros m n lf dom d md L Ep Hd E Hn HL. pose proof (metadata_parsed _ _ _ _ _ _ E Ep) as Ep'.
  destruct (metadata_split _ _ _ _ _ Ep' E) as (g & nulls & null & r & Eg & _ & _ & Er & _).
  apply (names_lower d g Eg Hd he Hhe lf null n r L Er Hn HL).
Qed.

Theorem C63_metadata_rounds : forall m k lf dom d md L,
  parse m dom = Ok (ADomain d) -> distinct_names d -> NoDup (d_methods d) -> get_metadata he k lf dom = Ok md ->
  NoDup L -> (forall ms, In ms L <-> method_path d ms) ->
  forall n, String.length dom <= n ->
    (length L <= n -> get_metadata he n lf dom = Ok md) /\ (n < length L -> get_metadata he n lf dom = OutOfFuel).
Proof.
  intros m k lf dom d md L Ep Hd Hnd E Hn HL n Hlen. pose proof (metadata_parsed _ _ _ _ _ _ E Ep) as Epk.
  destruct (metadata_split _ _ _ _ _ Epk E) as (g & nulls & null & r & Eg & En & Ei & Er & ->).
  pose proof (bound_length _ _ _ Ep) as Hb. unfold verify_bound in Hb. rewrite Eg in Hb.
  destruct (domain_reads _ _ _ Ep) as [_ Hparse].
  assert (exists x, compound d x) as Hc.
  { destruct (d_tasks d) as [|t ts] eqn:Et; [|exists (task_name t); unfold compound; rewrite Et; left; auto].
    unfold compute_nullables in En. rewrite (nullables_diverge he g k (no_compound_no_key d g Eg Et)) in En. discriminate. }
  assert (compute_nullables he n g = Ok nulls) as En'.
  { destruct (nullables_ok d g Eg he Hhe n Hc ltac:(lia)) as (l & _ & El). rewrite El, <- En, <- El.
    destruct (Nat.le_ge_cases n k) as [Hle|Hle].
    - symmetry. apply nullables_mono; auto. rewrite El. discriminate.
    - apply nullables_mono; auto. rewrite En. discriminate. }
  assert (get_metadata he n lf dom = obind (recursion_loop he n lf g null (initial_stack he g) NonRecursive)
            (fun r => Ok (mkMeta r (ho_names he nulls) "" (length (d_actions d)) (length (d_tasks d)) (length (d_methods d))))) as ->.
  { unfold get_metadata, parse_as_domain. rewrite (Hparse n Hlen). cbn [obind]. unfold domain_metadata. rewrite Eg. cbn [obind].
    rewrite En'. cbn [obind]. unfold get_recursion_type. rewrite Ei. cbn [obind]. reflexivity. }
  split; intros Hl.
  - rewrite (names_upper d g Eg Hd he Hhe lf null k r n L Er Hnd HL Hl). reflexivity.
  - destruct (recursion_loop he n lf g null (initial_stack he g) NonRecursive) as [r'|e|p|] eqn:En2; auto.
    + exfalso. pose proof (names_lower d g Eg Hd he Hhe lf null n r' L En2 Hn) as Hlow.
      assert (length L <= n); [|lia]. apply Hlow. apply Forall_forall. intros ms Hi. apply HL; auto.
    + exfalso. assert (n <= k) as Hle.
      { destruct (Nat.le_ge_cases n k) as [?|Hle]; auto. rewrite (loop_mono he lf g null k n) in En2 by (auto; rewrite Er; discriminate). congruence. }
      rewrite <- (loop_mono he lf g null n k) in En2 by (auto; rewrite En2; discriminate). congruence.
    + exfalso. assert (n <= k) as Hle.
      { destruct (Nat.le_ge_cases n k) as [?|Hle]; auto. rewrite (loop_mono he lf g null k n) in En2 by (auto; rewrite Er; discriminate). congruence. }
      rewrite <- (loop_mono he lf g null n k) in En2 by (auto; rewrite En2; discriminate). congruence.
Qed.
End Time.

(** ** Ladders: n + 1 tasks, two methods for each of the first n, both with the
    next task as their only subtask *)
Fixpoint xs (i : nat) : string := match i with O => EmptyString | S j => String "x" (xs j) end.
Definition word (c : ascii) (i : nat) : string := String c (xs i).
Definition name_sym (s : string) : symbol := mkSym s 1 None None.
Definition rung (i : nat) : task := mkTask (word "q" i) 1 [].
Definition step (b : bool) (i : nat) : method :=
  mkMethod (name_sym (word (if b then "a" else "b") i)) (name_sym (word "q" i)) [] [] None
    (mkHtn [mkSub None (name_sym (word "q" (S i))) []] None Total None).
Definition ladder (n : nat) : domain_ast :=
  mkDomain (word "q" 0) None None [] [] (map rung (seq 0 (S n))) (flat_map (fun i => [step true i; step false i]) (seq 0 n)) [] [].
Definition ladder_text (n : nat) : string := ast_text (ADomain (ladder n)).

Lemma xs_length i : String.length (xs i) = i.
Proof. induction i; simpl; auto. Qed.
Lemma word_inj c i d j : word c i = word d j -> c = d /\ i = j.
Proof. intros E. injection E as -> E. split; auto. rewrite <- (xs_length i), <- (xs_length j), E. auto. Qed.
Lemma step_In n m : In m (d_methods (ladder n)) <-> exists b i, i < n /\ m = step b i.
Proof.
  cbn [ladder d_methods]. rewrite in_flat_map. split.
  - intros (i & Hi & Hm). apply in_seq in Hi. destruct Hm as [<-|[<-|[]]]; [exists true, i|exists false, i]; split; auto; lia.
  - intros ([|] & i & Hi & ->); exists i; (split; [apply in_seq; lia|simpl; auto]).
Qed.
Lemma rung_In n t : In t (d_tasks (ladder n)) <-> exists i, i <= n /\ t = rung i.
Proof.
  cbn [ladder d_tasks]. rewrite in_map_iff. split.
  - intros (i & <- & Hi). apply in_seq in Hi. exists i. split; auto. lia.
  - intros (i & Hi & ->). exists i. split; auto. apply in_seq. lia.
Qed.
Lemma words_nodup c : forall l, NoDup l -> NoDup (map (word c) l).
Proof.
  induction l as [|i l IH]; intros Hl; [constructor|]. inversion Hl; subst. simpl. constructor; auto.
  intros Hi. apply in_map_iff in Hi as (j & E & Hj). apply word_inj in E as [_ ->]. auto.
Qed.
Lemma rungs_nodup n : NoDup (map task_name (d_tasks (ladder n))).
Proof. cbn [ladder d_tasks]. rewrite map_map. apply (words_nodup "q"), seq_NoDup. Qed.
Lemma ladder_distinct n : distinct_names (ladder n).
Proof. unfold distinct_names. cbn [ladder d_actions]. rewrite app_nil_r. apply rungs_nodup. Qed.

Lemma ladder_ok n : domain_ok (ladder n).
Proof.
  assert (forall i, i <= n -> forall b, call_ok (ladder n) b [] (name_sym (word "q" i)) []) as Hcall.
  { intros i Hi b. exists []. split; [|constructor]. apply (call_task (ladder n) b (rung i)).
    - apply rung_In. eauto.
    - intros _ a []. }
  split; [constructor|]. split.
  { intros a Ha. apply clos_trans_t1n in Ha. assert (forall x y, ~ parent (d_types (ladder n)) x y) as Hno.
    { intros x y (s & [] & _). }
    inversion Ha as [y Hy|y z Hy Hz]; subst; apply (Hno _ _ Hy). }
  split; [constructor|]. split; [constructor|]. split; [apply rungs_nodup|]. split.
  { apply Forall_forall. intros t Ht. apply rung_In in Ht as (i & _ & ->). intros s ty []. }
  split; [constructor|]. split; [constructor|]. split.
  - cbn [ladder d_methods]. assert (forall l, NoDup l -> NoDup (map (fun m => sym_name (m_name m)) (flat_map (fun i => [step true i; step false i]) l))) as Hnd.
    { induction l as [|i l IH]; intros Hl; [constructor|]. inversion Hl as [|? ? Hni Hl']; subst. cbn [flat_map app map].
      assert (forall b, ~ In (sym_name (m_name (step b i))) (map (fun m => sym_name (m_name m)) (flat_map (fun i => [step true i; step false i]) l))) as Hno.
      { intros b Hi. apply in_map_iff in Hi as (m & E & Hm). apply in_flat_map in Hm as (j & Hj & Hm).
        destruct Hm as [<-|[<-|[]]]; destruct b; cbn [m_name step sym_name name_sym] in E; apply word_inj in E as [E0 E]; subst; auto; discriminate. }
      constructor; [|constructor; auto; apply (Hno false)].
      intros [E|Hi]; [|apply (Hno true Hi)]. cbn [m_name step sym_name name_sym] in E. apply word_inj in E as [E _]. discriminate. }
    apply Hnd, seq_NoDup.
  - apply Forall_forall. intros m Hm. apply step_In in Hm as (b & i & Hi & ->). split; [constructor|]. split; [exact I|].
    split; [apply Hcall; lia|]. split; [|exact I]. constructor; [|constructor]. apply Hcall. lia.
Qed.
Lemma ladder_acyclic n x : ~ clos_trans string (decomposes (ladder n)) x x.
Proof.
  assert (forall a b, decomposes (ladder n) a b -> exists i, a = word "q" i /\ b = word "q" (S i)) as Hstep.
  { intros a b (m & Hm & <- & Hb). apply step_In in Hm as (c & i & _ & ->). exists i. destruct Hb as [<-|[]]. auto. }
  assert (forall a b, clos_trans string (decomposes (ladder n)) a b -> exists i j, a = word "q" i /\ b = word "q" j /\ i < j) as Hc.
  { induction 1 as [a b Hab|a b c _ (i & j & -> & -> & Hij) _ (j' & k & E & -> & Hjk)].
    - destruct (Hstep _ _ Hab) as (i & -> & ->). exists i, (S i). auto.
    - apply word_inj in E as [_ <-]. exists i, k. repeat split; auto. lia. }
  intros Hx. destruct (Hc _ _ Hx) as (i & j & -> & E & Hij). apply word_inj in E as [_ E]. lia.
Qed.

(** Its chains of full length: one for every sequence of choices. *)
Fixpoint choices (n : nat) : list (list bool) :=
  match n with O => [[]] | S k => map (cons true) (choices k) ++ map (cons false) (choices k) end.
Fixpoint climb (i : nat) (bs : list bool) : list method :=
  match bs with [] => [] | b :: bs' => step b i :: climb (S i) bs' end.
Lemma choices_length n : length (choices n) = 2 ^ n.
Proof. induction n as [|n IH]; auto. simpl. rewrite app_length, !map_length, IH. lia. Qed.
Lemma choices_each n : forall bs, In bs (choices n) -> length bs = n.
Proof.
  induction n as [|n IH]; simpl; [intros bs [<-|[]]; auto|]. intros bs Hi. apply in_app_or in Hi as [Hi|Hi];
    apply in_map_iff in Hi as (bs' & <- & Hi); simpl; auto.
Qed.
Lemma choices_nodup n : NoDup (choices n).
Proof.
  assert (forall (b : bool) l, NoDup l -> NoDup (map (cons b) l)) as Hm.
  { intros b. induction l as [|x l IHl]; intros Hl; [constructor|]. inversion Hl; subst. simpl. constructor; auto.
    intros Hi. apply in_map_iff in Hi as (y & E & Hy). injection E as ->. auto. }
  induction n as [|n IH]; simpl; [repeat constructor; auto|].
  assert (forall l1 l2 : list (list bool), NoDup l1 -> NoDup l2 -> (forall x, In x l1 -> ~ In x l2) -> NoDup (l1 ++ l2)) as Ha.
  { induction l1 as [|x l1 IHl]; intros l2 H1 H2 Hd; auto. inversion H1; subst. simpl. constructor.
    - rewrite in_app_iff. intros [?|Hi]; auto. apply (Hd x); auto. left; auto.
    - apply IHl; auto. intros y Hy. apply Hd. right; auto. }
  apply Ha; auto. intros x Hx Hy. apply in_map_iff in Hx as (a & <- & _). apply in_map_iff in Hy as (c & E & _). discriminate.
Qed.
Lemma climb_inj : forall a i b, climb i a = climb i b -> a = b.
Proof.
  induction a as [|x a IH]; intros i [|y b] E; auto; try discriminate. simpl in E.
  assert (x = y) as -> by (destruct x, y; auto; discriminate). f_equal. apply (IH (S i)). injection E; auto.
Qed.
Lemma climb_heads : forall bs i, map head (climb i bs) = map (word "q") (seq i (length bs)).
Proof. induction bs as [|b bs IH]; intros i; simpl; auto. rewrite IH. auto. Qed.
Lemma climb_linked : forall bs i, linked (climb i bs).
Proof.
  induction bs as [|b bs IH]; intros i; [exact I|]. destruct bs as [|b' bs]; [exact I|]. split; [left; auto|]. apply (IH (S i)).
Qed.
Lemma climb_In n : forall bs i, i + length bs <= n -> incl (climb i bs) (d_methods (ladder n)).
Proof.
  induction bs as [|b bs IH]; intros i Hi m; [intros []|]. cbn [length] in Hi. intros [<-|Hm]; [|apply (IH (S i)); auto; lia].
  apply step_In. exists b, i. split; auto. lia.
Qed.
Lemma climb_path n bs : 0 < n -> length bs = n -> method_path (ladder n) (climb 0 bs).
Proof.
  intros H0 Hl. split; [destruct bs; [simpl in Hl; lia|discriminate]|]. split; [apply climb_In; lia|]. split; [|apply climb_linked].
  rewrite climb_heads. apply words_nodup, seq_NoDup.
Qed.
Lemma ladder_chains n : 0 < n -> exists L, NoDup L /\ Forall (method_path (ladder n)) L /\ length L = 2 ^ n.
Proof.
  intros H0. exists (map (climb 0) (choices n)). rewrite map_length, choices_length. split; [|split; auto].
  - pose proof (choices_nodup n) as Hn. induction Hn as [|b l Hb _ IH]; simpl; constructor; auto.
    intros Hi. apply in_map_iff in Hi as (c & E & Hc). apply climb_inj in E as ->. auto.
  - apply Forall_forall. intros ms Hi. apply in_map_iff in Hi as (bs & <- & Hb). apply climb_path; auto. apply choices_each; auto.
Qed.

(** Its text. *)
Definition fixed : list token :=
  [LP; RP; TKeyword KDefine; TKeyword KDomain; TKeyword KRequirements; TKeyword KPredicates; TKeyword KFunctions; TKeyword KTask;
   TKeyword KParameters; TKeyword KMethod; TKeyword KOrderedSubtasks; TOp OAnd].
Definition small (n : nat) (t : token) : Prop :=
  In t fixed \/ exists c i, t = TIdent (word c i) /\ i <= n /\ In c ["q"; "a"; "b"]%char.
Lemma ladder_small n : Forall (small n) (ast_tokens (ADomain (ladder n))).
Proof.
  assert (forall (t : token), In t fixed -> small n t) as Hf by (intros; left; auto).
  assert (forall c i, i <= n -> In c ["q"; "a"; "b"]%char -> small n (TIdent (word c i))) as Hw by (intros c i Hi Hc; right; eauto).
  cbn [ast_tokens]. unfold domain_tokens. pose proof (rung_In n) as HT. pose proof (step_In n) as HM. revert HT HM.
  generalize (d_tasks (ladder n)) (d_methods (ladder n)). intros T M HT HM.
  cbn [ladder d_name d_reqs d_types d_constants d_preds d_funcs d_actions app flat_map req_tokens map].
  repeat (apply Forall_cons; [first [apply Hf; simpl; tauto|apply Hw; [lia|simpl; tauto]]|]).
  apply Forall_app. split; [|apply Forall_app; split; [|repeat constructor; apply Hf; simpl; tauto]].
  - apply Forall_flat_map. apply Forall_forall. intros t Ht. apply HT in Ht as (i & Hi & ->). cbn.
    repeat (apply Forall_cons; [first [apply Hf; simpl; tauto|apply Hw; [lia|simpl; tauto]]|]). constructor.
  - apply Forall_flat_map. apply Forall_forall. intros m Hm. apply HM in Hm as (b & i & Hi & ->).
    unfold method_tokens, step. cbn. destruct b;
    repeat (apply Forall_cons; [first [apply Hf; simpl; tauto|apply (Hw "q"%char (S i)); [lia|simpl; tauto]|apply Hw; [lia|simpl; tauto]]|]); constructor.
Qed.
Lemma word_bytes c i (P : ascii -> Prop) : P c -> P "x"%char -> str_all P (word c i).
Proof. intros Hc Hx. split; auto. induction i as [|i IH]; simpl; auto. Qed.
Lemma small_printable n t : small n t -> printable t.
Proof.
  intros [Hi|(c & i & -> & _ & Hc)].
  - repeat (destruct Hi as [<-|Hi]; [exact I|]). destruct Hi.
  - split.
    + apply word_bytes; [|left; reflexivity]. repeat (destruct Hc as [<-|Hc]; [left; reflexivity|]). destruct Hc.
    + apply ascii_utf8. apply word_bytes; [|unfold is_ascii; simpl; lia].
      repeat (destruct Hc as [<-|Hc]; [unfold is_ascii; simpl; lia|]). destruct Hc.
Qed.
Lemma small_text n t : small n t -> String.length (token_text t) <= n + 20.
Proof.
  intros [Hi|(c & i & -> & Hi & Hc)].
  - repeat (destruct Hi as [<-|Hi]; [simpl; lia|]). destruct Hi.
  - cbn [token_text]. destruct (plain_word _); cbn [String.length word]; rewrite xs_length; lia.
Qed.
Lemma text_length k : forall ts, Forall (fun t => String.length (token_text t) <= k) ts ->
  String.length (tokens_text ts) <= length ts * (k + 1).
Proof.
  induction 1 as [|t ts Ht _ IH]; simpl; [lia|]. rewrite app_length_s. simpl. lia.
Qed.
Lemma flat_length {A B} (f : A -> list B) k : forall l, (forall x, In x l -> length (f x) <= k) -> length (flat_map f l) <= length l * k.
Proof.
  induction l as [|x l IH]; intros Hl; simpl; [lia|]. rewrite app_length. pose proof (Hl x (or_introl eq_refl)).
  specialize (IH (fun y Hy => Hl y (or_intror Hy))). lia.
Qed.
Lemma ladder_tokens n : length (ast_tokens (ADomain (ladder n))) <= 60 * (n + 1).
Proof.
  assert (length (d_tasks (ladder n)) = n + 1) as HTl by (cbn [ladder d_tasks]; rewrite map_length, seq_length; lia).
  assert (length (d_methods (ladder n)) <= n * 2) as HMl.
  { cbn [ladder d_methods]. rewrite <- (seq_length n 0) at 2. apply flat_length. intros x _. simpl. lia. }
  cbn [ast_tokens]. unfold domain_tokens. pose proof (rung_In n) as HT. pose proof (step_In n) as HM. revert HT HM HTl HMl.
  generalize (d_tasks (ladder n)) (d_methods (ladder n)). intros T M HT HM HTl HMl.
  cbn [ladder d_name d_reqs d_types d_constants d_preds d_funcs d_actions app flat_map req_tokens map length].
  rewrite !app_length. cbn [length].
  match goal with |- context [length (flat_map ?f T)] => assert (length (flat_map f T) <= length T * 10) end.
  { apply flat_length. intros t Ht. apply HT in Ht as (i & _ & ->). simpl. lia. }
  assert (length (flat_map method_tokens M) <= length M * 20).
  { apply flat_length. intros m Hm. apply HM in Hm as (b & i & _ & ->). simpl. lia. }
  lia.
Qed.
Lemma ladder_length n : String.length (ladder_text n) <= 2048 * ((n + 1) * (n + 1)).
Proof.
  pose proof (ladder_tokens n) as Ht. pose proof (text_length (n + 20) (ast_tokens (ADomain (ladder n)))) as Hl. unfold ladder_text, ast_text.
  assert (String.length (tokens_text (ast_tokens (ADomain (ladder n)))) <= length (ast_tokens (ADomain (ladder n))) * (n + 20 + 1)) as Hle.
  { apply Hl. eapply Forall_impl; [|apply ladder_small]. intros t. apply small_text. }
  apply (Nat.mul_le_mono_r _ _ (n + 20 + 1)) in Ht. nia.
Qed.
Lemma map_same {A} (f : A -> A) l : (forall x, In x l -> f x = x) -> map f l = l.
Proof. induction l as [|x l IH]; intros Hl; simpl; auto. rewrite Hl, IH; auto; [intros y Hy; apply Hl; right; auto|left; auto]. Qed.
Lemma ladder_parse `{Unicode} n : exists k, parse k (ladder_text n) = Ok (ADomain (ladder n)).
Proof.
  exists (length (ast_tokens (ADomain (ladder n)))). unfold ladder_text. rewrite C11_print_parse; [| | |apply le_n].
  - f_equal. cbn [ast_at]. f_equal. unfold domain_at. 
    rewrite (map_same (SpecPrint.task_at 1) (d_tasks (ladder n))), (map_same (SpecPrint.method_at 1) (d_methods (ladder n))).
    + reflexivity.
    + intros m Hm. apply step_In in Hm as (b & i & _ & ->). reflexivity.
    + intros t Ht. apply rung_In in Ht as (i & _ & ->). reflexivity.
  - assert (wf_args []) as Hnil by (exists [], []; auto). split; [exact I|]. split; [exact I|]. split; [constructor|]. split; [constructor|].
    split; [|split; [|constructor]].
    + apply Forall_forall. intros t Ht. apply rung_In in Ht as (i & _ & ->). exact Hnil.
    + apply Forall_forall. intros m Hm. apply step_In in Hm as (b & i & _ & ->).
      assert (forall s, is_untyped (name_sym s)) as Hu by (split; auto).
      split; [apply Hu|]. split; [apply Hu|]. split; [exact Hnil|]. split; [exact Hnil|]. split; [exact I|]. split; [|reflexivity].
      constructor; [|constructor]. split; [exact I|]. split; [apply Hu|constructor].
  - eapply Forall_impl; [|apply ladder_small]. intros t. apply small_printable.
Qed.

Lemma above_line a c : exists m, m * a + c < 2 ^ m.
Proof.
  assert (forall x, x + 1 <= 2 ^ x) as H1.
  { induction x as [|x IH]; simpl; [lia|]. lia. }
  exists (4 * (a + c)). set (x := a + c). assert (2 ^ (4 * x) >= (x + 1) * (x + 1) * ((x + 1) * (x + 1))) as Hp.
  { replace (4 * x) with ((x + x) + (x + x)) by lia. rewrite !Nat.pow_add_r. specialize (H1 x).
    assert ((x + 1) * (x + 1) <= 2 ^ x * 2 ^ x) by (apply Nat.mul_le_mono; auto). apply Nat.mul_le_mono; auto. }
  assert (a <= x) by (subst x; lia). assert (c <= x) by (subst x; lia). clearbody x.
  assert (4 * x * a <= 4 * x * x) by (apply Nat.mul_le_mono_l; auto).
  assert ((x + 1) * (x + 1) * ((x + 1) * (x + 1)) >= 4 * x * x + x + 1); [|lia].
  assert ((x + 1) * (x + 1) = x * x + 2 * x + 1) as -> by lia. nia.
Qed.
Lemma ladder_beats c k : exists n, 0 < n /\ c * String.length (ladder_text n) ^ k < 2 ^ n.
Proof.
  destruct (above_line (2 * k) (c + 13 * k)) as (m & Hm). exists (2 ^ m). split; [pose proof (Nat.pow_nonzero 2 m); lia|].
  assert (String.length (ladder_text (2 ^ m)) <= 2 ^ (13 + 2 * m)) as Hl.
  { etransitivity; [apply ladder_length|]. assert (1 <= 2 ^ m) as H1 by (pose proof (Nat.pow_nonzero 2 m); lia).
    replace (13 + 2 * m) with (11 + (S m + S m)) by lia. rewrite Nat.pow_add_r. rewrite (Nat.pow_add_r 2 (S m)).
    apply Nat.mul_le_mono; [apply Nat.leb_le; vm_compute; reflexivity|]. rewrite Nat.pow_succ_r'. apply Nat.mul_le_mono; lia. }
  apply Nat.le_lt_trans with (2 ^ c * 2 ^ ((13 + 2 * m) * k)).
  - apply Nat.mul_le_mono; [apply Nat.lt_le_incl, Nat.pow_gt_lin_r; lia|]. rewrite Nat.pow_mul_r. apply Nat.pow_le_mono_l; auto.
  - rewrite <- Nat.pow_add_r. apply Nat.pow_lt_mono_r; [lia|]. lia.
Qed.

(** No polynomial in the length of the document bounds the rounds, not even for
    accepted domains without recursion whose methods have one subtask each. *)
Theorem C63_polynomial_refuted `{Unicode} : forall he c k, hash_env_ok he -> exists dom d,
  (exists m, parse m dom = Ok (ADomain d)) /\ domain_ok d /\ distinct_names d
  /\ (forall x, ~ clos_trans string (decomposes d) x x)
  /\ (forall m, In m (d_methods d) -> length (htn_subtasks (m_tn m)) = 1 /\ htn_orderings (m_tn m) = Total)
  /\ (forall n, String.length dom <= n -> exists ws, verify he n dom None = Ok ws)
  /\ (forall n lf, n <= c * String.length dom ^ k -> forall md, get_metadata he n lf dom <> Ok md)
  /\ (forall lf, exists n md, get_metadata he n lf dom = Ok md /\ md_recursion md = NonRecursive).
Proof.
  intros he c k Hhe. destruct (ladder_beats c k) as (n & H0 & Hn). exists (ladder_text n), (ladder n).
  destruct (ladder_parse n) as (m & Em). split; [eauto|]. split; [apply ladder_ok|]. split; [apply ladder_distinct|].
  split; [apply ladder_acyclic|]. split; [|split; [|split]].
  - intros me Hm. apply step_In in Hm as (b & i & _ & ->). auto.
  - intros j Hj. eapply accepted_verified; eauto. apply ladder_ok.
  - intros j lf Hj md E. destruct (ladder_chains n H0) as (L & HL1 & HL2 & HL3).
    pose proof (C63_metadata_at_least he Hhe m j lf _ _ md L Em (ladder_distinct n) E HL1 HL2). lia.
  - intros lf. destruct (C27_metadata_terminates_acyclic he Hhe m lf (ladder_text n) (ladder n) Em) as (j & Hj).
    + apply accepted_closed, ladder_ok.
    + apply ladder_distinct.
    + cbn [ladder d_tasks]. discriminate.
    + apply ladder_acyclic.
    + exists j. destruct (Hj j (le_n _)) as (md & E & Er). eauto.
Qed.

Definition time_theorems := (@C63_verify_rounds, @C63_metadata_at_least, @C63_metadata_rounds, @C63_polynomial_refuted).

(** ** Concrete cases *)
Open Scope string_scope.
Definition two_steps : string := dm [tk "t"; tk "u"; ac "a"; me "m" "t" (tot ["u"]); me "k" "u" (tot ["a"])].

(** A domain of 227 bytes. *)
Example C63_verify_example :
  str_last delimiter two_steps /\ String.length two_steps = 227 /\ str_last delimiter prob1
  /\ @verify uni0 env_id 228 two_steps None = Ok [].
Proof. split; [vm_compute; tauto|]. split; [vm_compute; reflexivity|]. split; [vm_compute; tauto|vm_compute; reflexivity]. Qed.

(** Three chains: m, k, and m followed by k. *)
Example C63_rounds_example : exists d md L,
  @parse uni0 300 two_steps = Ok (ADomain d) /\ distinct_names d /\ NoDup (d_methods d)
  /\ @get_metadata uni0 env_id 300 50 two_steps = Ok md /\ NoDup L /\ (forall ms, In ms L <-> method_path d ms) /\ length L = 3.
Proof.
  destruct (is_ok_ex (@parse uni0 300 two_steps)) as ([d|p] & E); [vm_compute; reflexivity| |vm_compute in E; discriminate].
  exists d. vm_compute in E. injection E as <-.
  match goal with |- context [d_methods (mkDomain _ _ _ _ _ _ [?a; ?b] _ _)] => set (m := a); set (k := b) end.
  eexists. exists [[m]; [k]; [m; k]]. split; [vm_compute; reflexivity|]. split; [unfold distinct_names; simpl; nodup|].
  split; [cbn [d_methods]; repeat constructor; simpl; intuition discriminate|]. split; [vm_compute; reflexivity|].
  split; [repeat constructor; simpl; intuition discriminate|]. split; [|reflexivity].
  intros ms. unfold method_path. cbn [d_methods]. split.
  - intros [<-|[<-|[<-|[]]]]; (split; [discriminate|]); (split; [intros x Hx; simpl in *; tauto|]); (split; [repeat constructor; simpl; intuition discriminate|]); simpl; auto.
  - intros (Hne & Hi & Hn & Hl). destruct ms as [|x ms]; [congruence|].
    assert (forall y, In y (x :: ms) -> y = m \/ y = k) as Hy by (intros y Hy; apply Hi in Hy as [<-|[<-|[]]]; auto).
    destruct ms as [|y ms].
    { destruct (Hy x (or_introl eq_refl)) as [->| ->]; simpl; auto. }
    destruct (Hy x (or_introl eq_refl)) as [->| ->]; destruct (Hy y (or_intror (or_introl eq_refl))) as [->| ->];
      destruct Hl as [Hl Hl']; try (simpl in Hl; intuition discriminate).
    destruct ms as [|z ms]; [simpl; auto|]. destruct (Hy z (or_intror (or_intror (or_introl eq_refl)))) as [->| ->]; destruct Hl' as [Hl' _]; simpl in Hl'; intuition discriminate.
Qed.
