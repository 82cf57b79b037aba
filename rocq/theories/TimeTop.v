(** The rounds of the recursion search and of verification in terms of the
    document. *)
From Coq Require Import String Ascii NArith Bool List Lia PeanoNat Permutation.
From Verif Require Import Base Token Lexer Errors Ast Parser Graph Tdg Semantic Api StrFacts SpecLex LexProofs LexProofs2 LexProofs3
  ParserProofs ParserStream SpecGrammar GrammarTop ParserTerm SpecSem GraphProofs TdgGraph TdgReach SpecTdg SpecRec SpecTime
  TdgTop VerifyTop TdgRec TdgRecTop TdgTime.
Import ListNotations.
Open Scope list_scope.
Open Scope nat_scope.
Open Scope outcome_scope.

Lemma f2_length {A B} (R : A -> B -> Prop) l l' : Forall2 R l l' -> length l = length l'.
Proof. induction 1; simpl; auto. Qed.

(** ** More fuel does not change the result of the search *)
Lemma loop_mono he lf g null : forall n m stack r, n <= m -> recursion_loop he n lf g null stack r <> OutOfFuel ->
  recursion_loop he m lf g null stack r = recursion_loop he n lf g null stack r.
Proof.
  induction n as [|n IH]; intros [|m] [|p stack] r Hm Hf; try lia; auto; [destruct (Hf eq_refl)|].
  cbn [recursion_loop] in *. destruct (visit_tasks _ _ _ _ _ _ _ _ _) as [sr| | |]; cbn [obind] in *; auto. apply IH; auto. lia.
Qed.

(** ** Names *)
Section Names.
Variable d : domain_ast.
Variable g : tdg.
Hypothesis Hg : tdg_new d = Ok g.
Hypothesis Hd : distinct_names d.
Notation step_at := (step_at d).

Lemma chain_linked c ms : Forall2 step_at c ms -> (chain g c <-> linked ms).
Proof.
  induction 1 as [|x md c ms Hx Hc IH]; [simpl; tauto|]. destruct Hc as [|y md' c ms Hy Hc]; [simpl; tauto|].
  change (chain g (x :: y :: c)) with (In (fst y) (to_set g (snd x)) /\ chain g (y :: c)).
  change (linked (md :: md' :: ms)) with (In (head md') (subtask_names md) /\ linked (md' :: ms)).
  rewrite IH. destruct Hx as [Hx _], Hy as [_ Hy]. rewrite (to_step d g Hg Hd (fst y) (head md') (snd x) md Hx Hy). tauto.
Qed.
Lemma path_iff c ms : Forall2 step_at c ms -> (ipath g c <-> method_path d ms).
Proof.
  intros H2. pose proof (chain_linked _ _ H2) as Hl. pose proof (heads_nodup d Hd _ _ H2) as Hn.
  assert (Forall (fun x => In (snd x) (from_set g (fst x))) c) as Hf.
  { clear Hl Hn. induction H2 as [|[a b] y c' ms' H _ IH]; constructor; auto. apply (from_step d g Hg Hd). eauto. }
  assert (incl ms (d_methods d)) as Hi.
  { clear Hl Hn Hf. intros y Hy. induction H2 as [|[a b] y' c' ms' [H _] _ IH]; [destruct Hy|].
    destruct Hy as [<-|Hy]; auto. eapply nth_error_In; eauto. }
  assert (c <> [] <-> ms <> []) as Hne by (destruct H2; split; congruence).
  unfold method_path. rewrite <- Hl, <- Hn, <- Hne. split; [intros [H3 H4 H5 H6]; auto|intros (H3 & H4 & H5 & H6); constructor; auto].
Qed.
Lemma step_fun x a b : step_at x a -> step_at x b -> a = b.
Proof. intros [E1 _] [E2 _]. congruence. Qed.
Lemma steps_fun : forall c a b, Forall2 step_at c a -> Forall2 step_at c b -> a = b.
Proof.
  induction c as [|x c IH]; intros a b Ha Hb; inversion Ha; inversion Hb; subst; auto. f_equal; [eapply step_fun; eauto|eauto].
Qed.
Lemma step_inj x y a : NoDup (d_methods d) -> step_at x a -> step_at y a -> x = y.
Proof.
  intros Hn [E1 H1] [E2 H2]. destruct x as [t m], y as [t' m']. cbn [fst snd] in *. f_equal.
  - apply (name_at_inj d Hd _ _ _ H1 H2).
  - eapply nodup_nth; eauto.
Qed.
Lemma steps_inj : NoDup (d_methods d) -> forall c c' a, Forall2 step_at c a -> Forall2 step_at c' a -> c = c'.
Proof.
  intros Hn. induction c as [|x c IH]; intros c' a Ha Hb; inversion Ha; subst; inversion Hb; subst; auto.
  f_equal; [eapply step_inj; eauto|eauto].
Qed.

Lemma paths_of L : Forall (method_path d) L -> exists C, Forall2 (Forall2 step_at) C L.
Proof.
  induction 1 as [|ms L (_ & Hi & _) _ (C & HC)]; [exists []; constructor|].
  destruct (methods_path d g Hg Hd ms Hi) as (c & Hc). exists (c :: C). constructor; auto.
Qed.
Lemma paths_In C L : Forall2 (Forall2 step_at) C L -> forall c, In c C -> exists ms, In ms L /\ Forall2 step_at c ms.
Proof. induction 1 as [|c ms C L Hc _ IH]; intros x []; [subst; eauto using in_eq|]. destruct (IH x H) as (ms' & H1 & H2). eauto using in_cons. Qed.
Lemma paths_In_r C L : Forall2 (Forall2 step_at) C L -> forall ms, In ms L -> exists c, In c C /\ Forall2 step_at c ms.
Proof. induction 1 as [|c ms C L Hc _ IH]; intros x []; [subst; eauto using in_eq|]. destruct (IH x H) as (ms' & H1 & H2). eauto using in_cons. Qed.
Lemma paths_nodup C L : Forall2 (Forall2 step_at) C L -> NoDup L -> NoDup C.
Proof.
  induction 1 as [|c ms C L Hc HC IH]; intros Hn; [constructor|]. inversion Hn; subst. constructor; auto.
  intros Hi. destruct (paths_In _ _ HC c Hi) as (ms' & Hi' & Hc'). rewrite (steps_fun _ _ _ Hc Hc') in *. auto.
Qed.

Variable he : hash_env.
Hypothesis Hhe : hash_env_ok he.
Lemma names_lower lf null fuel r L : recursion_loop he fuel lf g null (initial_stack he g) NonRecursive = Ok r ->
  NoDup L -> Forall (method_path d) L -> length L <= fuel.
Proof.
  intros E Hn HL. destruct (paths_of L HL) as (C & HC). rewrite <- (f2_length _ _ _ HC).
  apply (search_lower he Hhe g (from_lt d g Hg) null lf fuel r C E).
  - eapply paths_nodup; eauto.
  - apply Forall_forall. intros c Hc. destruct (paths_In _ _ HC c Hc) as (ms & Hi & H2). apply (path_iff _ _ H2).
    rewrite Forall_forall in HL. auto.
Qed.
Lemma names_upper lf null k r fuel L : recursion_loop he k lf g null (initial_stack he g) NonRecursive = Ok r ->
  NoDup (d_methods d) -> (forall ms, In ms L <-> method_path d ms) -> length L <= fuel ->
  recursion_loop he fuel lf g null (initial_stack he g) NonRecursive = Ok r.
Proof.
  intros E Hn HL Hf. destruct (paths_of L) as (C & HC); [apply Forall_forall; intros ms Hi; apply HL; auto|].
  assert (exists r', recursion_loop he fuel lf g null (initial_stack he g) NonRecursive = Ok r') as (r' & E').
  { apply (search_upper he Hhe g (from_lt d g Hg) (from_set_NoDup d g Hg) (to_set_NoDup d g Hg) null lf fuel C).
    - intros c t Hc. destruct (search_spec he Hhe g (from_lt d g Hg) null lf k r E) as (H1 & _).
      destruct (H1 c t Hc) as (es & Ees & _). eauto.
    - intros p Hp. pose proof Hp as [_ Hp2 _ _]. destruct (path_methods d g Hg Hd p Hp2) as (ms & Hms).
      apply (path_iff _ _ Hms) in Hp. apply HL in Hp. destruct (paths_In_r _ _ HC ms Hp) as (c & Hc & H2).
      rewrite (steps_inj Hn _ _ _ Hms H2). auto.
    - pose proof (f2_length _ _ _ HC). unfold path in *. lia. }
  rewrite E'. rewrite <- E, <- E'. destruct (Nat.le_ge_cases k fuel) as [Hle|Hle].
  - apply loop_mono; auto. rewrite E. discriminate.
  - symmetry. apply loop_mono; auto. rewrite E'. discriminate.
Qed.
End Names.

(** ** Rounds of verification and the length of the document *)
Lemma sum_le {A} (f f' : A -> nat) l : (forall x, In x l -> f x <= f' x) -> list_sum (map f l) <= list_sum (map f' l).
Proof.
  induction l as [|x l IH]; intros Hl; auto. cbn [map]. rewrite !sum_cons. specialize (Hl x (or_introl eq_refl)) as Hx.
  specialize (IH (fun y Hy => Hl y (or_intror Hy))). lia.
Qed.
Lemma sum_seq {A} (f : A -> nat) (h : nat -> nat) : forall l k, (forall i x, nth_error l i = Some x -> h (k + i) <= f x) ->
  list_sum (map h (seq k (length l))) <= list_sum (map f l).
Proof.
  induction l as [|x l IH]; intros k Hh; auto. cbn [length seq map]. rewrite !sum_cons.
  pose proof (Hh 0 x eq_refl) as H0. rewrite Nat.add_0_r in H0.
  specialize (IH (S k)). assert (list_sum (map h (seq (S k) (length l))) <= list_sum (map f l)); [|lia].
  apply IH. intros i y Ei. specialize (Hh (S i) y Ei). rewrite Nat.add_succ_r in Hh. auto.
Qed.
Lemma sum_concat {A} (f : A -> nat) : forall ls, list_sum (map f (concat ls)) = list_sum (map (fun l => list_sum (map f l)) ls).
Proof. induction ls as [|l ls IH]; auto. cbn [concat map]. rewrite map_app, sum_app, sum_cons, IH. auto. Qed.

Definition calls (d : domain_ast) : nat := list_sum (map (fun m => length (htn_subtasks (m_tn m))) (d_methods d)).
Definition weight_of (d : domain_ast) : nat := calls d + 2 * (length (d_tasks d) + length (d_actions d)) + 3.

Lemma bound_weight d g : tdg_new d = Ok g -> tdg_bound g <= weight_of d.
Proof.
  intros Hg. unfold tdg_bound, weight_of.
  assert (length (tg_tasks g) = length (d_tasks d) + length (d_actions d)) as ->.
  { rewrite (tdg_tasks d g Hg), task_list_app, app_length, !map_length. auto. }
  assert (bfs_bound g <= 1 + calls d); [|lia]. unfold bfs_bound, calls. apply le_n_S.
  set (n := length (tg_tasks g)). unfold weight.
  transitivity (list_sum (map (fun m => length (to_set g m)) (concat (map (from_set g) (seq 0 n))))).
  { rewrite sum_concat, map_map. auto. }
  transitivity (list_sum (map (fun m => length (to_set g m)) (seq 0 (length (d_methods d))))).
  - apply sum_incl.
    + assert (forall ts, NoDup ts -> NoDup (concat (map (from_set g) ts))) as Hnd; [|apply Hnd, seq_NoDup].
      induction ts as [|t ts IH]; intros Ht; [constructor|]. inversion Ht as [|? ? Hnt Ht']; subst. cbn [map concat].
      specialize (IH Ht'). revert IH. pose proof (from_set_NoDup d g Hg t) as Hf.
      assert (forall m, In m (from_set g t) -> ~ In m (concat (map (from_set g) ts))) as Hdis.
      { intros m Hm Hi. apply in_concat in Hi as (l & Hl & Hi). apply in_map_iff in Hl as (t' & <- & Ht1).
        apply (from_set_In d g Hg) in Hm as (md & E1 & E2). apply (from_set_In d g Hg) in Hi as (md' & E1' & E2').
        assert (t' = t) as -> by congruence. auto. }
      revert Hf Hdis. generalize (from_set g t) (concat (map (from_set g) ts)). intros l1 l2. clear.
      induction l1 as [|x l1 IH]; intros H1 Hd H2; auto. simpl. inversion H1; subst. constructor.
      * rewrite in_app_iff. intros [?|Hi]; auto. apply (Hd x); auto. left; auto.
      * apply IH; auto. intros m Hm. apply Hd. right; auto.
    + intros m Hm. apply in_concat in Hm as (l & Hl & Hm). apply in_map_iff in Hl as (t & <- & _).
      apply (from_set_In d g Hg) in Hm as (md & E & _). apply in_seq. split; [lia|]. simpl. apply nth_error_Some. congruence.
  - apply (sum_seq (fun m => length (htn_subtasks (m_tn m))) (fun m => length (to_set g m)) (d_methods d) 0).
    intros i md E. simpl. destruct (to_set_spec d g Hg i md E) as (ids & E1 & ->).
    assert (length (htn_subtasks (m_tn md)) = length ids) as ->.
    { rewrite <- (map_length Some ids), <- E1, map_length. auto. }
    apply nodup_le; [apply of_list_NoDup|]. intros x Hx. exact (proj1 (of_list_In ids x) Hx).
Qed.

(** Tokens of the parts of a domain. *)
Lemma subtask_list_size ts s : GSubtaskList ts s -> length s <= length ts.
Proof. induction 1; simpl; [lia|]. rewrite app_length. unfold tok in *. lia. Qed.
Lemma subtasks_size ts s : GSubtasks ts s -> length s <= length ts.
Proof. destruct 1 as [|l ts s _|l1 l2 ts ss Hs]; simpl; try lia. apply subtask_list_size in Hs. unfold tok in *. lia. Qed.
Lemma clauses_size s o l c ts h : GClauses s o l c ts h -> htn_subtasks h = s.
Proof. induction 1; auto. Qed.
Lemma htn_size ts h b : GHtn ts h b -> length (htn_subtasks h) <= length ts.
Proof.
  destruct 1 as [|l ts s us h Hs Hc|l ts s r Hs|l ts s l' us c Hs _]; simpl; [lia|..]; apply subtasks_size in Hs; rewrite app_length;
    unfold tok in *; [rewrite (clauses_size _ _ _ _ _ _ Hc)|..]; lia.
Qed.
Lemma method_size ts m b : GMethod ts m b -> length (htn_subtasks (m_tn m)) <= length ts.
Proof.
  destruct 1 as [n ln l1 l2 ts params l3 l4 t lt us terms vs pre ws h b _ _ _ Hh _]. apply htn_size in Hh.
  cbn [m_tn length]. rewrite app_length. cbn [length]. rewrite !app_length. unfold tok in *. lia.
Qed.
Definition block_weight (b : dblock) : nat :=
  match b with BTask _ | BAction _ => 2 | BMethod m => length (htn_subtasks (m_tn m)) | _ => 0 end.
Lemma block_size ts b o : GBlock ts b o -> block_weight b <= length ts.
Proof.
  destruct 1 as [| | | | | |l1 l2 ts r b Hm|]; simpl; try lia. apply method_size in Hm. unfold tok in *. lia.
Qed.
Lemma blocks_size ts bs : GBlocks ts bs -> list_sum (map block_weight bs) <= length ts.
Proof.
  induction 1 as [l|ts b l Hb|ts b us bs Hb _ IH]; [simpl; lia|..]; apply block_size in Hb; rewrite app_length; cbn [map]; rewrite sum_cons;
    unfold tok in *; simpl list_sum in *; lia.
Qed.
Lemma domain_weight n bs : weight_of (domain_of n bs) = list_sum (map block_weight bs) + 3.
Proof.
  unfold weight_of, calls. cbn [d_tasks d_methods d_actions domain_of]. f_equal.
  induction bs as [|b bs IH]; auto. cbn [flat_map map]. rewrite sum_cons, !app_length, map_app, sum_app.
  destruct b; cbn [map length block_weight]; rewrite ?sum_cons; simpl (list_sum []) ; lia.
Qed.
Lemma document_size ts d : GDocument ts (ADomain d) -> weight_of d <= length ts.
Proof.
  intros Hg. inversion Hg as [l1 l2 l3 l4 n ln l5 us bs Hb|]; subst. apply blocks_size in Hb. rewrite domain_weight. cbn [length].
  unfold tok in *. lia.
Qed.

Section Doc.
Context `{Unicode}.
Lemma reads_length : forall ts st l st', Reads st (ts ++ [rp l]) st' -> str_last delimiter (rest st) ->
  length (ts ++ [rp l]) <= String.length (rest st).
Proof.
  induction ts as [|[t lt] ts IH]; intros st l st' Hr Hl; simpl app in *; inversion Hr as [|? t' st1 ? ? E Hr']; subst.
  - pose proof (get_progress _ _ _ E ltac:(discriminate) Hl). simpl. lia.
  - destruct (lex_suffix _ _ _ _ E) as (x & Ex); [discriminate|].
    assert (Hl1 : str_last delimiter (rest st1)) by (rewrite Ex in Hl; eapply str_last_suffix; eauto).
    specialize (IH _ _ _ Hr' Hl1). destruct (token_eq_eof t) as [->|Ht].
    + exfalso. apply get_token_spec in E as (gp & s & Er & _ & Hs & _). inversion Hs; subst.
      all: try (match goal with Hi : In _ _ |- _ => destruct Hi end).
      rewrite app_length in IH. match goal with Hx : _ = rest st1 |- _ => rewrite <- Hx in IH end. simpl in IH. lia.
    + pose proof (get_progress _ _ _ E Ht Hl). simpl. unfold tok in *. lia.
Qed.
Lemma domain_reads n program d : parse n program = Ok (ADomain d) ->
  weight_of d <= String.length program /\ forall m, String.length program <= m -> parse m program = Ok (ADomain d).
Proof.
  intros E. apply parse_sound in E as (ts & st' & Hr & Hg).
  assert (exists us l, ts = us ++ [rp l]) as (us & l & ->).
  { inversion Hg as [l1 l2 l3 l4 nm ln l5 us bs Hb|]; subst.
    destruct (gblocks_last _ _ Hb) as (vs & l & ->).
    exists (lp l1 :: kw KDefine l2 :: lp l3 :: kw KDomain l4 :: id nm ln :: rp l5 :: vs), l. reflexivity. }
  destruct (reads_swap _ _ _ _ Hr) as (q & Eq & _ & Hl & Hz). cbn [rest lex_new] in Eq.
  assert (length (us ++ [rp l]) <= String.length program) as Hlen.
  { rewrite Eq, app_length_s. specialize (Hz ""%string). rewrite app_nil_r_s in Hz.
    apply reads_length in Hz; [cbn [rest] in Hz; lia|]. cbn [rest]. revert Hl. apply str_last_impl. intros c ->. unfold delimiter. auto. }
  split.
  - apply document_size in Hg. unfold tok in *. lia.
  - intros m Hm. eapply parse_complete; eauto. unfold tok in *. lia.
Qed.
End Doc.
