(** Property theorems about the depth of recursion: C68.  The functions of
    Stack.v are those of the parser and of the checks with a limit on the number
    of nested calls; the limit of the tokenizer is the argument of [lex_fuel].
    Specification: SpecStack.v. *)
From Coq Require Import String Ascii NArith Bool List Lia PeanoNat Relations Permutation.
From Verif Require Import Base Token Lexer Errors Ast Parser Semantic Api Stack StrFacts SpecLex LexProofs LexProofs2 LexProofs3
  ParserProofs ParserStream SpecPrint PropsLex PropsParse Graph Tdg TimeTop SpecSem SpecSim SimSem SimTdg SimTop PropsSim PropsTime PropsTdg SpecStack StackProofs.
Import ListNotations.
Open Scope list_scope.
Open Scope nat_scope.

Section Stack.
Context `{Unicode}.

(** A run within the limit is a run of the program. *)
Theorem C68_same_result : forall d n program r, parse_in d n program = Fits r -> parse n program = r.
Proof. intros. eapply parse_in_agrees; eauto. Qed.

(** More calls than opening parentheses are never nested, whatever the text. *)
Theorem C68_enough : forall d n program, opens program < d -> parse_in d n program = Fits (parse n program).
Proof.
  intros d n program Hd. pose proof (parse_in_bound d n program Hd) as Hb. destruct (parse_in d n program) as [r|] eqn:E; [|congruence].
  apply parse_in_agrees in E. congruence.
Qed.

(** For a domain that is read, it is exactly the deepest nesting of a formula. *)
Theorem C68_domain : forall n program a, parse n program = Ok (ADomain a) ->
  exists k, deepest (formulas_of (ADomain a)) k
    /\ forall d, parse_in d n program = if d <? k then Overflow else Fits (Ok (ADomain a)).
Proof.
  intros n program a E. destruct (parse_in_exact n program _ E) as (k & Hk & Hd). exists k. split; auto.
  apply depth_deepest. exact Hk.
Qed.

(** For a problem it is at least the nesting of the goal.  (A goal may be given
    twice; only the last one is in the tree.) *)
Theorem C68_problem : forall n program p g, parse n program = Ok (AProblem p) -> p_goal p = Some g ->
  exists k, nested g k /\ forall d, d < k -> parse_in d n program = Overflow.
Proof.
  intros n program p g E Eg. destruct (parse_in_exact n program _ E) as (k & Hk & Hd).
  destruct (Hk g Eg) as (j & Hj & Hl). exists j. split; auto. intros d Hlt. rewrite Hd.
  destruct (Nat.ltb_spec d k); auto. lia.
Qed.

(** The checks nest at most twice as deep as the parser did on the document. *)
Theorem C68_checks : forall d n program a f preds,
  parse_in d n program = Fits (Ok a) -> In f (formulas_of a) ->
  check_predicates_in (2 * d) preds f = Fits (check_predicate_declarations preds f)
  /\ prop_preds_in (2 * d) f = Fits (prop_preds f).
Proof.
  intros d n program a f preds E Hf. pose proof (parse_in_agrees d n program _ E) as Ep.
  destruct (parse_in_exact n program _ Ep) as (k & Hk & Hd). rewrite Hd in E. destruct (Nat.ltb_spec d k); [discriminate|].
  assert (exists j, nested f j /\ j <= k) as (j & Hj & Hl).
  { destruct a as [a|p].
    - apply depth_deepest in Hk as [Hk _]. auto.
    - cbn [formulas_of opt_list] in Hf. destruct (p_goal p) as [g|] eqn:Eg; [|destruct Hf]. destruct Hf as [<-|[]].
      apply Hk. exact Eg. }
  apply nested_height in Hj. split; [apply check_fits|apply preds_fits]; lia.
Qed.

(** The check of the predicates nests exactly as deep as the formula is high,
    if it succeeds. *)
Theorem C68_check_depth : forall d preds f, check_predicate_declarations preds f = Ok tt ->
  check_predicates_in d preds f = if d <? height f then Overflow else Fits (Ok tt).
Proof. intros. apply check_exact; auto. Qed.

(** A check within the limit is a check of the program. *)
Theorem C68_check_result : forall d preds f,
  (forall r, check_predicates_in d preds f = Fits r -> check_predicate_declarations preds f = r)
  /\ (forall r, prop_preds_in d f = Fits r -> prop_preds f = r).
Proof. intros. split; intros r E; [eapply check_ag|eapply preds_ag]; eauto. Qed.

Lemma gap_comments g : Gap g -> exists k, Comments k g.
Proof.
  induction 1 as [|c g Hc _ (k & Hk)|text g Ht _ (k & Hk)]; [exists 0; apply cm_nil|exists k; apply cm_ws; auto|exists (S k); apply cm_comment; auto].
Qed.

(** The tokenizer calls itself once for every comment in front of a token. *)
Theorem C68_comments : forall st, exists k g s,
  rest st = (g ++ s)%string /\ Comments k g /\ (token_start s \/ open_comment s)
  /\ forall d p, (fst (lex_fuel d p st) = LFuel <-> d <= k) /\ (k < d -> lex_fuel d p st = lex p st).
Proof.
  intros [r ln]. destruct (lex_view_ok true (mkL r ln)) as [g s E Hg Hs _|g s E Hg Hs _]; cbn [rest] in E; subst r;
    destruct (gap_comments g Hg) as (k & Hk); exists k, g, s; (split; [reflexivity|]); (split; [auto|]); (split; [auto|]);
    intros d p; (pose proof (comment_frames p s) as Hc);
    (assert (fst (lex_fuel d p (mkL (g ++ s) ln)) = LFuel <-> d <= k) as Hi by (apply Hc; unfold gap_stop; auto));
    (split; [exact Hi|]); intros Hd; apply lex_fuel_lex; rewrite Hi; lia.
Qed.
End Stack.

(** ** No limit is enough for all documents *)
Fixpoint nots (k : nat) : formula :=
  match k with O => FAtom (mkPred "p" 1 []) | S j => FNot (nots j) end.
Definition deep (k : nat) : domain_ast :=
  mkDomain "q" None None [] [mkPred "p" 1 []] [] [] [mkAction "a" 1 [] (Some (nots k)) None] [].

Lemma nots_nested k : nested (nots k) (S k).
Proof. induction k; simpl; constructor; auto. Qed.
Lemma nested_nots k j : nested (nots k) j -> j = S k.
Proof. revert j. induction k as [|k IH]; intros j Hj; inversion Hj; subst; auto. Qed.
Lemma nots_within k g : within g (nots k) -> exists j, g = nots j.
Proof.
  intros Hw. apply clos_rt_rtn1 in Hw. remember (nots k) as f eqn:Ef. revert k Ef.
  induction Hw as [|x y Hc Hw IH]; intros k Ef; [eauto|]. subst y.
  destruct k as [|k]; simpl in Hc; [inversion Hc|]. inversion Hc; subst. apply (IH k). auto.
Qed.
Lemma open_within g f : within_open g f -> within g f.
Proof.
  induction 1 as [x y [a b Hc _]|x|x y z _ IH1 _ IH2]; [apply rt_step; auto|apply rt_refl|eapply rt_trans; eauto].
Qed.
Lemma nots_atom k p : within (FAtom p) (nots k) -> p = mkPred "p" 1 [].
Proof. intros Hw. apply nots_within in Hw as ([|j] & E); simpl in E; congruence. Qed.

Lemma deep_ok k : domain_ok (deep k).
Proof.
  split; [constructor|]. split.
  { intros a Ha. apply clos_trans_t1n in Ha. assert (forall x y, ~ parent (d_types (deep k)) x y) as Hno.
    { intros x y (s & [] & _). }
    inversion Ha as [y Hy|y z Hy Hz]; subst; apply (Hno _ _ Hy). }
  split; [repeat constructor; simpl; tauto|]. split; [constructor; [intros s ty []|constructor]|].
  split; [constructor|]. split; [constructor|]. split; [repeat constructor; simpl; tauto|].
  split; [|split; constructor]. constructor; [|constructor]. split; [constructor|]. split; [|exact I].
  cbn [act_pre opt_formula_ok act_params]. split; [|split; [|split]].
  - intros g Hg. apply nots_within in Hg as ([|j] & ->); exact I.
  - intros p Hp. apply nots_atom in Hp as ->. exists (mkPred "p" 1 []). simpl. auto.
  - intros s ty [].
  - intros p Hp. apply open_within, nots_atom in Hp as ->. exists (mkPred "p" 1 []). simpl. repeat split; auto. constructor.
Qed.

Definition deep_text (k : nat) : string := ast_text (ADomain (deep k)).
Lemma nots_tokens k : length (formula_tokens (nots k)) = 3 + 3 * k.
Proof. induction k as [|k IH]; auto. cbn [nots formula_tokens]. cbn [length]. rewrite app_length, IH. simpl. lia. Qed.
Lemma nots_each (P : token -> Prop) k : P LP -> P RP -> P (TOp ONot) -> P (TIdent "p") -> Forall P (formula_tokens (nots k)).
Proof.
  intros. induction k as [|k IH]; cbn [nots formula_tokens].
  - simpl. repeat constructor; auto.
  - constructor; auto. constructor; auto. apply Forall_app. split; auto.
Qed.
Definition plain (t : token) : Prop :=
  In t (TOp ONot :: TIdent "p" :: TIdent "q" :: TIdent "a" :: TKeyword KAction :: TKeyword KPrecondition :: fixed).
Lemma deep_plain k : Forall plain (ast_tokens (ADomain (deep k))).
Proof.
  assert (Forall plain (formula_tokens (nots k))) as Hf by (apply nots_each; unfold plain; simpl; tauto).
  cbn [ast_tokens]. unfold domain_tokens. cbn [deep d_name d_reqs d_types d_constants d_preds d_funcs d_tasks d_methods d_actions flat_map
    req_tokens pred_tokens pred_name pred_vars action_tokens task_tokens act_name act_params act_pre act_eff opt_formula_tokens map app].
  rewrite ?app_nil_r. generalize dependent (formula_tokens (nots k)). intros ts Hf. simpl.
  repeat (apply Forall_cons; [unfold plain; simpl; tauto|]).
  repeat (apply Forall_app; split); auto; repeat (apply Forall_cons; [unfold plain; simpl; tauto|]); constructor.
Qed.
Lemma plain_printable t : plain t -> printable t.
Proof.
  intros Hi. repeat (destruct Hi as [<-|Hi]; [solve [exact I|split; [split; [left; reflexivity|exact I]|apply ascii_utf8; split; [unfold is_ascii; simpl; lia|exact I]]]|]).
  destruct Hi.
Qed.
Lemma plain_text t : plain t -> String.length (token_text t) <= 20.
Proof. intros Hi. repeat (destruct Hi as [<-|Hi]; [vm_compute; lia|]). destruct Hi. Qed.
Lemma deep_tokens k : length (ast_tokens (ADomain (deep k))) <= 40 + 3 * k.
Proof.
  cbn [ast_tokens]. unfold domain_tokens. cbn [deep d_name d_reqs d_types d_constants d_preds d_funcs d_tasks d_methods d_actions flat_map
    req_tokens pred_tokens pred_name pred_vars action_tokens task_tokens act_name act_params act_pre act_eff opt_formula_tokens map app].
  pose proof (nots_tokens k) as Hn. generalize dependent (formula_tokens (nots k)). intros ts Hn. simpl.
  rewrite ?app_length; simpl; rewrite ?app_length; simpl; rewrite ?app_length; simpl. lia.
Qed.
Lemma deep_length k : String.length (deep_text k) <= 63 * k + 840.
Proof.
  pose proof (deep_tokens k) as Ht. pose proof (text_length 20 (ast_tokens (ADomain (deep k)))) as Hl. unfold deep_text, ast_text.
  assert (String.length (tokens_text (ast_tokens (ADomain (deep k)))) <= length (ast_tokens (ADomain (deep k))) * (20 + 1)) as Hle.
  { apply Hl. eapply Forall_impl; [|apply deep_plain]. intros t. apply plain_text. }
  lia.
Qed.
Lemma deep_parse `{Unicode} k : exists n, parse n (deep_text k) = Ok (ADomain (deep k)).
Proof.
  exists (length (ast_tokens (ADomain (deep k)))). unfold deep_text. rewrite C11_print_parse; [| | |apply le_n].
  - assert (formula_at 1 (nots k) = nots k) as Ef by (induction k as [|k IH]; [reflexivity|cbn [nots formula_at]; rewrite IH; reflexivity]).
    unfold deep, ast_at, domain_at, SpecPrint.action_at. cbn [d_name d_types d_constants d_reqs d_preds d_tasks d_methods d_actions d_funcs map
      act_name act_pos act_params act_pre act_eff option_map]. rewrite Ef. reflexivity.
  - assert (wf_args []) as Hnil by (exists [], []; auto).
    assert (wf_formula (nots k)) as Hf by (induction k; simpl; auto).
    repeat split; try exact I; repeat constructor; auto.
  - eapply Forall_impl; [|apply deep_plain]. intros t. apply plain_printable.
Qed.

(** For every limit there is a domain, at most 63 bytes longer for each further
    call allowed, that the program accepts but the limit does not. *)
Theorem C68_limit_refuted `{Unicode} : forall he d, hash_env_ok he -> exists dom,
  String.length dom <= 63 * d + 840
  /\ (forall n, String.length dom <= n -> (exists ws, verify he n dom None = Ok ws) /\ parse_in d n dom = Overflow).
Proof.
  intros he d Hhe. exists (deep_text d). split; [apply deep_length|]. intros n Hn. destruct (deep_parse d) as (m & Em).
  split; [eapply accepted_verified; eauto using deep_ok|].
  apply domain_reads in Em as [_ Hp]. specialize (Hp n Hn). destruct (C68_domain _ _ _ Hp) as (k & [Hk _] & Hd).
  rewrite Hd. destruct (Hk (nots d)) as (j & Hj & Hl); [simpl; auto|]. apply nested_nots in Hj as ->.
  destruct (Nat.ltb_spec d k); auto. lia.
Qed.

(** The same for the tokenizer: two bytes for each further call. *)
Fixpoint semis (d : nat) : string :=
  match d with O => EmptyString | S d' => String ";" (String "010" (semis d')) end.
Lemma semis_gap d : Gap (semis d).
Proof. induction d as [|d IH]; simpl; [constructor|]. apply (gap_comment "" (semis d)); auto. Qed.
Lemma semis_length d : String.length (semis d) = 2 * d.
Proof. induction d as [|d IH]; simpl; auto. rewrite IH. lia. Qed.
Lemma semis_comments d k g : Comments k g -> Comments (d + k) (semis d ++ g).
Proof. intros Hg. induction d as [|d IH]; simpl; auto. apply (cm_comment "" (d + k) (semis d ++ g)%string); auto. Qed.

Theorem C68_comments_refuted `{Unicode} : forall he d n dom ws, hash_env_ok he -> verify he n dom None = Ok ws ->
  exists dom' ws', String.length dom' = String.length dom + 2 * d /\ verify he n dom' None = Ok ws' /\ length ws' = length ws
    /\ forall p, fst (lex_fuel d p (lex_new dom')) = LFuel.
Proof.
  intros he d n dom ws Hhe E. exists (semis d ++ dom)%string.
  pose proof (C42_verify_gap_in_domain he Hhe n "" (semis d) dom None) as Hg. cbn [String.append] in Hg. rewrite E in Hg.
  cbv zeta in Hg. assert (clean "") as Hc by (intros [|? ?] y Ey; discriminate). specialize (Hg Hc I (semis_gap d)).
  inversion Hg as [a b Hab E1 E2| | |]; subst. exists b. split; [rewrite app_length_s, semis_length; lia|]. split; auto.
  split; [destruct Hab as (vs & Hp & Hf); apply f2_length in Hf; apply Permutation_length in Hp; lia|]. intros p.
  destruct (lex_view_ok p (lex_new dom)) as [g s Es Hgap Hs _|g s Es Hgap Hs _]; cbn [lex_new rest] in Es; subst dom;
    destruct (gap_comments g Hgap) as (k & Hk); unfold lex_new; rewrite <- app_assoc_s;
    apply (comment_frames p s) with (k := d + k); unfold gap_stop; auto using semis_comments; lia.
Qed.

Definition stack_theorems := (@C68_same_result, @C68_enough, @C68_domain, @C68_problem, @C68_checks, @C68_check_depth, @C68_check_result,
  @C68_comments, @C68_limit_refuted, @C68_comments_refuted).

(** ** Concrete cases *)
Open Scope string_scope.
Definition nested_domain : string :=
  "; one" ++ nl ++ "; two" ++ nl ++ "(define (domain d) (:predicates (p) (q))" ++ nl ++
  "(:action a :parameters () :precondition (not (or (p) (not (q)))) :effect (and (p))))".
Example C68_example :
  @parse_in uni0 3 200 nested_domain = Overflow
  /\ (exists a, @parse_in uni0 4 200 nested_domain = Fits (Ok (ADomain a)))
  /\ opens nested_domain = 14
  /\ fst (@lex_fuel uni0 2 true (lex_new nested_domain)) = LFuel
  /\ fst (@lex_fuel uni0 3 true (lex_new nested_domain)) = LTok (TPunct LParen).
Proof.
  split; [vm_compute; reflexivity|]. split; [eexists; vm_compute; reflexivity|]. split; [vm_compute; reflexivity|].
  split; vm_compute; reflexivity.
Qed.
Example C68_check_example :
  let p := mkPred "p" 1 [] in
  check_predicate_declarations [p] (FNot (FOr [FAtom p; FNot (FAtom p)])) = Ok tt
  /\ height (FNot (FOr [FAtom p; FNot (FAtom p)])) = 4.
Proof. split; vm_compute; reflexivity. Qed.
