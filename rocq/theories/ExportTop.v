(** The tokens of a document and its length (proofs for C83). *)
From Coq Require Import String Ascii NArith ZArith Bool List Lia PeanoNat.
From Verif Require Import Base Token Lexer Errors Ast Parser Api Json SpecLex LexProofs LexProofs2 SpecGrammar GrammarTop StrFacts ParserPrefix PropsLex ExportSize.
Import ListNotations.
Open Scope string_scope.
Open Scope list_scope.
Open Scope nat_scope.

(** ** Only the last token of a document can be the end *)
Lemma noeof_app a b : noeof (a ++ b) <-> noeof a /\ noeof b. Proof. apply Forall_app. Qed.
Lemma noeof_cons t l b : noeof ((t, l) :: b) <-> t <> TEOF /\ noeof b. Proof. apply Forall_cons_iff. Qed.
Lemma noeof_nil : noeof []. Proof. constructor. Qed.
Lemma noeof_ids ns : noeof (ids ns).
Proof. induction ns as [|n ns IH]; [constructor|]. constructor; [discriminate|exact IH]. Qed.
Create HintDb eofdb.
Ltac eof := unfold lp, rp, kw, oper, id; repeat (rewrite noeof_app || rewrite noeof_cons); repeat split;
  first [discriminate|apply noeof_nil|apply noeof_ids|solve [eauto with eofdb]].
Lemma eof_args ts r : GArgs ts r -> noeof ts. Proof. induction 1; eof. Qed.
Lemma eof_reqs ts r : GReqs ts r -> noeof ts. Proof. induction 1; eof. Qed.
#[local] Hint Resolve eof_args eof_reqs : eofdb.
Lemma eof_preds ts r : GPreds ts r -> noeof ts. Proof. induction 1; eof. Qed.
Lemma eof_funcs ts r : GFuncs ts r -> noeof ts. Proof. induction 1; eof. Qed.
Lemma eof_formula ts f : GFormula ts f -> noeof ts.
Proof.
  revert ts f. apply (GFormula_mut (fun ts _ _ => noeof ts) (fun ts _ _ => noeof ts) (fun ts _ _ => noeof ts)); intros; eof.
Qed.
#[local] Hint Resolve eof_preds eof_funcs eof_formula : eofdb.
Lemma eof_task ts r : GTask ts r -> noeof ts. Proof. destruct 1; eof. Qed.
Lemma eof_opt k ts r : GOptFormula k ts r -> noeof ts. Proof. destruct 1; eof. Qed.
#[local] Hint Resolve eof_task eof_opt : eofdb.
Lemma eof_action ts r : GAction ts r -> noeof ts. Proof. destruct 1; eof. Qed.
Lemma eof_order ts r : GOrder ts r -> noeof ts. Proof. destruct 1; eof. Qed.
#[local] Hint Resolve eof_order eof_action : eofdb.
Lemma eof_order_list ts r : GOrderList ts r -> noeof ts. Proof. induction 1; eof. Qed.
#[local] Hint Resolve eof_order_list : eofdb.
Lemma eof_orderings ts r : GOrderings ts r -> noeof ts. Proof. destruct 1; eof. Qed.
Lemma eof_subtask ts r : GSubtask ts r -> noeof ts. Proof. destruct 1; eof. Qed.
#[local] Hint Resolve eof_orderings eof_subtask : eofdb.
Lemma eof_subtask_list ts r : GSubtaskList ts r -> noeof ts. Proof. induction 1; eof. Qed.
#[local] Hint Resolve eof_subtask_list : eofdb.
Lemma eof_subtasks ts r : GSubtasks ts r -> noeof ts. Proof. destruct 1; eof. Qed.
Lemma eof_constraint ts r : GConstraint ts r -> noeof ts. Proof. destruct 1; eof. Qed.
#[local] Hint Resolve eof_subtasks eof_constraint : eofdb.
Lemma eof_constraint_list ts r : GConstraintList ts r -> noeof ts. Proof. induction 1; eof. Qed.
#[local] Hint Resolve eof_constraint_list : eofdb.
Lemma eof_constraints ts r : GConstraints ts r -> noeof ts. Proof. destruct 1; eof. Qed.
#[local] Hint Resolve eof_constraints : eofdb.
Lemma eof_clauses s o l c ts h : GClauses s o l c ts h -> noeof ts. Proof. induction 1; eof. Qed.
#[local] Hint Resolve eof_clauses : eofdb.
Lemma eof_htn ts h b : GHtn ts h b -> noeof ts. Proof. destruct 1; eof. Qed.
#[local] Hint Resolve eof_htn : eofdb.
Lemma eof_init ts h b : GInitTn ts h b -> noeof ts. Proof. destruct 1; eof. Qed.
Lemma eof_method ts h b : GMethod ts h b -> noeof ts. Proof. destruct 1; eof. Qed.
#[local] Hint Resolve eof_init eof_method : eofdb.
Lemma eof_block ts b x : GBlock ts b x -> noeof ts. Proof. destruct 1; eof. Qed.
Lemma eof_pblock ts b x : GPBlock ts b x -> noeof ts. Proof. destruct 1; eof. Qed.
#[local] Hint Resolve eof_block eof_pblock : eofdb.
Lemma blocks_end ts bs : GBlocks ts bs -> exists us t l, ts = us ++ [(t, l)] /\ noeof us /\ (t = TPunct RParen \/ t = TEOF).
Proof.
  induction 1 as [l|ts b l Hb|ts b us bs Hb _ (vs & t & l & -> & Hn & Ht)].
  - exists [], (TPunct RParen), l. split; [reflexivity|]. split; [constructor|auto].
  - exists ts, (TPunct RParen), l. split; [reflexivity|]. split; [eof|auto].
  - exists (ts ++ vs), t, l. split; [apply app_assoc|]. split; [eof|auto].
Qed.
Lemma pblocks_end ts bs : GPBlocks ts bs -> exists us t l, ts = us ++ [(t, l)] /\ noeof us /\ (t = TPunct RParen \/ t = TEOF).
Proof.
  induction 1 as [l|l|ts b l Hb|ts b us bs Hb _ (vs & t & l & -> & Hn & Ht)].
  - exists [], (TPunct RParen), l. split; [reflexivity|]. split; [constructor|auto].
  - exists [], TEOF, l. split; [reflexivity|]. split; [constructor|auto].
  - exists ts, (TPunct RParen), l. split; [reflexivity|]. split; [eof|auto].
  - exists (ts ++ vs), t, l. split; [apply app_assoc|]. split; [eof|auto].
Qed.
Lemma document_end ts a : GDocument ts a -> exists us t l, ts = us ++ [(t, l)] /\ noeof us /\ (t = TPunct RParen \/ t = TEOF).
Proof.
  destruct 1 as [l1 l2 l3 l4 n ln l5 ts bs Hb|l1 l2 l3 l4 n ln l5 l6 l7 m lm l8 ts bs Hb].
  - destruct (blocks_end _ _ Hb) as (us & t & l & -> & Hn & Ht).
    exists (lp l1 :: kw KDefine l2 :: lp l3 :: kw KDomain l4 :: id n ln :: rp l5 :: us), t, l. split; [reflexivity|]. split; [eof|auto].
  - destruct (pblocks_end _ _ Hb) as (us & t & l & -> & Hn & Ht).
    exists (lp l1 :: kw KDefine l2 :: lp l3 :: kw KProblem l4 :: id n ln :: rp l5 :: lp l6 :: kw KDomain l7 :: id m lm :: rp l8 :: us), t, l.
    split; [reflexivity|]. split; [eof|auto].
Qed.

(** ** Tokens and bytes *)
Section U.
Context `{Unicode}.
Lemma spells_len s t r : Spells s t r -> String.length r <= String.length s
  /\ match t with
     | TIdent w => String.length w <= String.length s
     | TNumber (Real l) => String.length l <= String.length s
     | _ => True
     end.
Proof.
  intros Hs. assert (forall s w r, word_at s w r -> String.length s = String.length w + String.length r) as Hw.
  { intros s' w' r' (-> & _ & _). apply app_length_s. }
  inversion Hs; subst; cbn [String.length]; rewrite ?app_length_s; cbn [String.length]; rewrite ?app_length_s; try (split; [lia|]; auto; lia).
  - apply Hw in H0. split; lia.
  - apply Hw in H0. split; [lia|]. destruct t; auto; destruct H1.
  - apply Hw in H0. split; [lia|]. destruct t; auto; destruct H2.
  - apply Hw in H0. split; lia.
Qed.
Lemma count_nl_len g : (count_nl g <= N.of_nat (String.length g))%N.
Proof. induction g as [|c g IH]; cbn [count_nl String.length]; [lia|]. destruct (_ : bool); lia. Qed.
Lemma digits_len : forall f n acc, String.length (digits_of_fuel f n acc) <= f + String.length acc.
Proof.
  induction f as [|f IH]; intros n acc; cbn [digits_of_fuel]; [lia|]. destruct (_ <? _)%N; [cbn [String.length]; lia|].
  eapply Nat.le_trans; [apply IH|]. cbn [String.length]. lia.
Qed.
Lemma show_Z_of_N n : show_Z (Z.of_N n) = show_N n.
Proof. destruct n; reflexivity. Qed.
Lemma show_len n : String.length (show_N n) <= S (N.to_nat (N.size n)).
Proof. unfold show_N. eapply Nat.le_trans; [apply digits_len|]. cbn [String.length]. lia. Qed.
Lemma size_small n : (N.size n <= n)%N.
Proof.
  destruct n as [|p]; [cbn; lia|]. rewrite N.size_log2 by discriminate. pose proof (N.log2_lt_lin (Npos p)). lia.
Qed.
Lemma show_int_len z : (0 <= z <= 9223372036854775807)%Z -> String.length (show_Z z) <= 64.
Proof.
  intros Hz. replace z with (Z.of_N (Z.to_N z)) by lia. rewrite show_Z_of_N. eapply Nat.le_trans; [apply show_len|].
  assert (N.size (Z.to_N z) <= 63)%N; [|lia]. destruct (Z.to_N z) as [|p] eqn:E; [cbn; lia|].
  rewrite N.size_log2 by discriminate. apply N.le_succ_l. apply N.log2_lt_pow2; [lia|]. change (2 ^ 63)%N with 9223372036854775808%N. lia.
Qed.

(** After a word that is cut off there is no end. *)
Lemma cut_off s t r : Spells s t r -> t <> TEOF -> String.length r < String.length s \/ t = TIdent "" /\ r = s.
Proof.
  intros Hs Ht. inversion Hs; subst; cbn [String.length]; try (left; lia); try congruence.
  - left. destruct H0 as (-> & _ & _). rewrite app_length_s. lia.
  - left. destruct H0 as (-> & _ & _). rewrite app_length_s. lia.
  - left. destruct d; [congruence|]. cbn [append String.length]. rewrite app_length_s. lia.
  - left. rewrite app_length_s. cbn [String.length]. rewrite app_length_s. lia.
  - left. destruct H0 as (-> & _ & _). rewrite app_length_s. destruct w; [|cbn [String.length]; lia].
    apply bare_lookup_spec in H2. discriminate.
  - destruct H0 as (-> & _ & _). destruct w; [right; auto|left]. rewrite app_length_s. cbn [String.length]. lia.
Qed.
Lemma for_ever st : Spells (rest st) (TIdent "") (rest st) -> forall ts st', Reads st ts st' -> Forall (fun x => fst x = TIdent "") ts.
Proof.
  intros Hs ts st' Hr. induction Hr as [|st t st1 ts st2 E Hr IH]; constructor.
  - cbn [fst]. assert (get_token st = (LTok (TIdent ""), st)) as E2; [|congruence].
    apply get_token_spec. exists "", (rest st). split; [reflexivity|]. split; [constructor|]. split; [exact Hs|]. cbn [count_nl]. lia.
  - apply IH. assert (get_token st = (LTok (TIdent ""), st)) as E2; [|congruence].
    apply get_token_spec. exists "", (rest st). split; [reflexivity|]. split; [constructor|]. split; [exact Hs|]. cbn [count_nl]. lia.
Qed.
Lemma reads_count : forall ts st t l st', Reads st (ts ++ [(t, l)]) st' -> noeof ts -> t <> TIdent "" -> length ts <= String.length (rest st).
Proof.
  induction ts as [|[t0 l0] ts IH]; intros st t l st' Hr Hn Ht; [cbn [length]; lia|]. cbn [app] in Hr.
  inversion Hr as [|? t' st1 ? ? E Hr']; subst. apply noeof_cons in Hn as [Hn0 Hn]. specialize (IH _ _ _ _ Hr' Hn Ht).
  apply get_token_spec in E as (g & s & Eg & _ & Hs & _). destruct (cut_off _ _ _ Hs Hn0) as [Hl|[-> Er]].
  - rewrite Eg, app_length_s. cbn [length]. lia.
  - exfalso. rewrite <- Er in Hs. pose proof (for_ever st1 Hs _ _ Hr') as Hf. apply Forall_app in Hf as [_ Hf]. inversion Hf; subst. auto.
Qed.
Lemma document_count program ts st' a : Reads (lex_new program) ts st' -> GDocument ts a -> length ts <= String.length program + 1.
Proof.
  intros Hr Hg. destruct (document_end _ _ Hg) as (us & t & l & -> & Hn & Ht). apply reads_count in Hr; auto; [|destruct Ht as [-> | ->]; discriminate].
  rewrite app_length. cbn [length lex_new rest] in *. lia.
Qed.
Context `{Floats}.
Lemma reads_tok_ok M : (forall l, String.length (f64_text l) <= 64 + String.length l) -> forall ts st st',
  Reads st ts st' -> (1 <= line st)%N -> N.to_nat (line st) + String.length (rest st) + 63 <= M -> Forall (tok_ok M) ts.
Proof.
  intros Hf ts st st' Hr. induction Hr as [|st t st1 ts st2 E Hr IH]; intros H1 HM; constructor.
  - pose proof (C07_content _ _ _ E) as Hc. apply get_token_spec in E as (g & s & Eg & _ & Hs & El).
    destruct (spells_len _ _ _ Hs) as [_ Hl]. rewrite Eg, app_length_s in HM. pose proof (count_nl_len g) as Hn. split; cbn [fst snd].
    + rewrite show_Z_of_N. eapply Nat.le_trans; [apply show_len|]. pose proof (size_small (line st1)). lia.
    + destruct t as [|w|[x|z]| | | |]; auto; [lia|specialize (Hf x); lia|]. apply show_int_len in Hc. lia.
  - apply get_token_spec in E as (g & s & Eg & _ & Hs & El). apply IH; [lia|]. destruct (spells_len _ _ _ Hs) as [Hl _].
    rewrite Eg, app_length_s in HM. pose proof (count_nl_len g) as Hn. lia.
Qed.
Lemma parsed_ok M n program a : (forall l, String.length (f64_text l) <= 64 + String.length l) -> parse n program = Ok a ->
  String.length program + 64 <= M -> ok M (7 * (String.length program + 1)) (j_ast a).
Proof.
  intros Hf E HM. assert (64 <= M) as HM' by lia. apply parse_sound in E as (ts & st' & Hr & Hg). pose proof (document_count _ _ _ _ Hr Hg) as Hn.
  eapply (ok_le M HM'); [apply (ok_document M HM' ts); [exact Hg|]|apply Nat.mul_le_mono_l; exact Hn].
  eapply reads_tok_ok; [exact Hf|exact Hr|cbn [lex_new line]; lia|]. cbn [lex_new rest line]. lia.
Qed.
Lemma export_len swap n dom prob t : (forall l, String.length (f64_text l) <= 64 + String.length l) -> to_json swap n dom prob = Ok t ->
  let L := String.length dom + match prob with Some p => String.length p | None => 0 end in
  String.length t <= 280 * (L + 12) ^ 2.
Proof.
  intros Hf E L. set (M := L + 64). assert (64 <= M) as HM' by lia.
  assert (exists j, json_value swap n dom prob = Ok j /\ t = json_text 0 j) as (j & Ej & ->).
  { unfold to_json in E. destruct (json_value swap n dom prob) as [j| | |]; try discriminate. exists j. split; auto. injection E as <-. reflexivity. }
  assert (ok M (7 * L + 15) j) as [Hw Hk].
  { unfold json_value, parse_as_domain, parse_as_problem in Ej.
    destruct (parse n dom) as [[d|p]| | |] eqn:E1; cbn [obind] in Ej; try discriminate.
    pose proof (parsed_ok M n dom _ Hf E1 ltac:(lia)) as H1. cbn [j_ast] in H1.
    destruct prob as [s|].
    - destruct (parse n s) as [[d'|p]| | |] eqn:E2; cbn [obind] in Ej; try discriminate.
      pose proof (parsed_ok M n s _ Hf E2 ltac:(lia)) as H2. cbn [j_ast] in H2.
      injection Ej as <-. destruct swap.
      + eapply (ok_le M HM'); [apply (ok_obj M HM'), (okf_cons M HM'); [cbn [String.length]; lia|exact H2|apply (okf_cons M HM'); [cbn [String.length]; lia|exact H1|apply okf_nil; exact HM']]|lia].
      + eapply (ok_le M HM'); [apply (ok_obj M HM'), (okf_cons M HM'); [cbn [String.length]; lia|exact H1|apply (okf_cons M HM'); [cbn [String.length]; lia|exact H2|apply okf_nil; exact HM']]|lia].
    - injection Ej as <-. eapply (ok_le M HM'); [apply (ok_obj M HM'), (okf_cons M HM'); [cbn [String.length]; lia|exact H1|apply okf_nil; exact HM']|lia]. }
  pose proof (text_len M (7 * L + 15) j 0 Hw Hk) as Ht. cbn [Nat.pow]. clearbody L. subst M. nia.
Qed.
End U.
