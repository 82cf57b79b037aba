(** C78: reports are short and do not repeat themselves. *)
From Coq Require Import String Ascii NArith ZArith Bool List Lia PeanoNat Permutation.
From Verif Require Import Base Token Lexer Errors Ast Parser Graph Semantic Tdg Api Json Cli Lsp StrFacts SpecLex LexProofs LexProofs2
  SpecSem SemProblem SpecTdg SpecRec GraphProofs TdgGraph TdgTop VerifyTop PropsLex PropsParse PropsSem PropsTdg PropsIo SpecText TextProofs PropsText SpecReport.
Import ListNotations.
Open Scope list_scope.
Open Scope nat_scope.

Definition warned (w : warning) : string := match w with NoPrimitiveRefinement s _ => s end.

Lemma breaks_app a b : line_breaks (a ++ b) = line_breaks a + line_breaks b.
Proof. induction a as [|c a IH]; simpl; auto. rewrite IH. lia. Qed.
Lemma plain_breaks s : plain s -> line_breaks s = 0.
Proof.
  induction s as [|c s IH]; simpl; auto. intros Hp. destruct (Ascii.eqb_spec c "010") as [->|Hc].
  - exfalso. apply Hp. left. auto.
  - apply IH. intros Hi. apply Hp. right. auto.
Qed.
Lemma unlines_breaks l : Forall plain l -> line_breaks (unlines l) = length l.
Proof.
  induction 1 as [|x l Hx _ IH]; auto. cbn [unlines length]. rewrite breaks_app, plain_breaks by auto. simpl. auto.
Qed.
Lemma show_N_breaks n : line_breaks (show_N n) = 0.
Proof. rewrite <- (N2Nat.id n). apply plain_breaks, digits_plain. Qed.
Lemma word_breaks s : a_word s -> line_breaks s = 0.
Proof. intros Hw. apply plain_breaks, plain_word, Hw. Qed.
Lemma nodup_add_str x l : NoDup l -> NoDup (add_str x l).
Proof.
  intros Hl. unfold add_str. destruct (mem_str x l) eqn:E; auto. apply Permutation_NoDup with (x :: l).
  - apply Permutation_cons_append.
  - constructor; auto. intros Hi. apply mem_str_In in Hi. congruence.
Qed.
Lemma nodup_fold_add {A} (f : A -> string) : forall l acc, NoDup acc -> NoDup (fold_left (fun acc i => add_str (f i) acc) l acc).
Proof. induction l as [|i l IH]; simpl; auto. intros acc Ha. apply IH, nodup_add_str, Ha. Qed.
Lemma nodup_map_filter {A B} (f : A -> B) p : forall l, NoDup (map f l) -> NoDup (map f (filter p l)).
Proof.
  induction l as [|x l IH]; simpl; auto. intros Hn. inversion Hn; subst. destruct (p x); auto. simpl. constructor; auto.
  intros Hi. apply in_map_iff in Hi as (y & Ey & Hy). apply filter_In in Hy as [Hy _]. apply H1. rewrite <- Ey. apply in_map, Hy.
Qed.
Lemma filter_le {A} (p : A -> bool) l : length (filter p l) <= length l.
Proof. induction l as [|x l IH]; simpl; auto. destruct (p x); simpl; lia. Qed.

Section S.
Context `{Unicode}.
Variable he : hash_env.
Hypothesis Hhe : hash_env_ok he.
Context `{F : Floats}.
Variable swap : bool.

(** ** Warnings *)
Lemma verify_table n dom prob ws : verify he n dom prob = Ok ws ->
  exists d tb, parse n dom = Ok (ADomain d) /\ verify_domain he n d = Ok tb /\ ws = st_warnings tb.
Proof.
  unfold verify, parse_as_domain. intros E. apply bind_ok in E as (d & Ed & E). apply bind_ok in E as (tb & Et & E).
  apply bind_ok in Ed as ([d'|p] & Ep & Ed); [injection Ed as ->|discriminate]. exists d, tb. split; auto. split; auto.
  destruct prob as [s|]; [|injection E as <-; auto]. apply bind_ok in E as (p & _ & E).
  destruct (verify_domain_sound he d n tb Et) as (_ & ws' & ->). rewrite verify_problem_check in E.
  apply bind_ok in E as ([] & _ & E). injection E as <-. auto.
Qed.
Theorem C78_warnings : forall n dom prob ws d,
  verify he n dom prob = Ok ws -> parse n dom = Ok (ADomain d) ->
  NoDup (map warned ws) /\ length ws <= length (d_tasks d)
  /\ forall w, In w ws -> exists t, In t (d_tasks d) /\ w = NoPrimitiveRefinement (task_name t) (task_pos t).
Proof.
  intros n dom prob ws d E Ep. destruct (C15_no_duplicates he n dom prob ws d E Ep) as (_ & _ & Hn & _).
  destruct (verify_table n dom prob ws E) as (d' & tb & Ep' & Et & ->). rewrite Ep in Ep'. injection Ep' as <-.
  destruct (verify_domain_list _ _ _ _ Et) as (g & _ & ->). set (p := warns g he n).
  pose proof (ho_decl_ok he Hhe (d_tasks d)) as Hp. rewrite map_map. cbn [warned]. split; [|split].
  - apply (nodup_map_filter task_name). eapply Permutation_NoDup; [|exact Hn]. apply Permutation_map. auto using Permutation_sym.
  - rewrite map_length. erewrite (Permutation_length (l := d_tasks d)); [apply filter_le|auto using Permutation_sym].
  - intros w Hw. apply in_map_iff in Hw as (t & <- & Ht). apply filter_In in Ht as [Ht _]. exists t. split; auto.
    eapply Permutation_in; [|exact Ht]. auto using Permutation_sym.
Qed.

(** On the screen: one line for every warning, no two alike, and [Ok]. *)
Definition text_of (o : printed) : string := match o with Stdout s | Stderr s => s | Cli.Written _ s => s end.
Theorem C78_screen : forall n m dom prob ws, verify he n dom prob = Ok ws ->
  exists out, main he swap n m (CmdVerify (Content dom) (option_map Content prob)) = Exit (map Stdout out) 0
  /\ NoDup out /\ length out = S (length ws) /\ forall t, In t out -> line_breaks t = 0.
Proof.
  intros n m dom prob ws E. pose (text := fun w => text_of (warning_line w)).
  exists (map text ws ++ [text_of ok_line]). split; [|split; [|split]].
  - destruct prob as [s|]; cbn [option_map main]; rewrite E; cbn [print_verification]; rewrite map_app, map_map; reflexivity.
  - destruct (verify_table n dom prob ws E) as (d & _ & Ep & _). destruct (C78_warnings n dom prob ws d E Ep) as (Hn & _ & _).
    assert (forall w w', In w ws -> In w' ws -> text w = text w' -> w = w') as Hi.
    { intros w w' Hw Hw' Et. unfold text, warning_line, text_of in Et. do 2 (repeat apply append_inj_l in Et).
      eapply (C47_unambiguous_warnings he Hhe); eauto. }
    apply Permutation_NoDup with (text_of ok_line :: map text ws); [apply Permutation_cons_append|]. constructor.
    + intros Hx. apply in_map_iff in Hx as (w & Ew & _). discriminate Ew.
    + clear E Ep d. induction ws as [|w ws IH]; [constructor|]. simpl in *. inversion Hn; subst. constructor; [|apply IH; auto].
      intros Hx. apply in_map_iff in Hx as (w' & Ew & Hw'). apply Hi in Ew; auto. subst w'. apply H2. apply in_map, Hw'.
  - rewrite app_length, map_length. simpl. lia.
  - intros t Ht. apply in_app_iff in Ht as [Ht|[<-|[]]]; [|reflexivity]. apply in_map_iff in Ht as ([s l] & <- & Hw).
    assert (a_word s) as Hs.
    { destruct (C46_warning_words he Hhe n dom prob ws s l E Hw) as [Hi|(x & _ & Hi)]; eapply words_are_words; eauto. }
    unfold text, warning_line, text_of. cbn [show_warning]. rewrite !breaks_app, show_N_breaks, (word_breaks s Hs). reflexivity.
Qed.
(** A fault: one message and nothing else. *)
Theorem C78_one_message : forall n m dom prob e t, verify he n dom prob = Err e -> show_parsing_error e = Some t ->
  exists s, main he swap n m (CmdVerify (Content dom) (option_map Content prob)) = Exit [Stderr s] 0 /\ mentions s t.
Proof.
  intros n m dom prob e t E Et.
  assert (main he swap n m (CmdVerify (Content dom) (option_map Content prob)) = print_error e) as ->.
  { destruct prob as [s|]; cbn [option_map main]; rewrite E; reflexivity. }
  unfold print_error. rewrite Et. eexists. split; [reflexivity|]. eexists _, ""%string. rewrite app_nil_r_s. rewrite <- !app_assoc_s. reflexivity.
Qed.
Theorem C78_fault_one_line : forall n dom prob e t, verify he n dom prob = Err (ESem e) -> show_sem_err e = Some t -> line_breaks t = 0.
Proof.
  intros n dom prob e t E Et.
  assert (forall x, In x (sem_words e) -> line_breaks x = 0) as Hw.
  { intros x Hx. apply word_breaks. destruct (C46_error_words he Hhe n dom prob e x E Hx) as [Hi|(s & _ & Hi)]; eapply words_are_words; eauto. }
  assert (match show_sem_err e with Some t => line_breaks t = 0 | None => True end) as Hs; [|rewrite Et in Hs; exact Hs].
  destruct e as [d|r|d|d|d|d|d|u|u|u|u|u|u|a|a|y|y| |p]; cbn [show_sem_err sem_words] in *; unfold show_dup, show_undef, show_type_err, type_words, show_nat in *;
    try (destruct (ty_expected y), (ty_found y)); try exact I; rewrite ?breaks_app, ?show_N_breaks;
    repeat match goal with |- context [line_breaks ?x] => rewrite (Hw x) by (simpl; auto) end; try reflexivity.
  destruct r; reflexivity.
Qed.

(** ** Metadata *)
Lemma metadata_parts n lf dom md d : get_metadata he n lf dom = Ok md -> parse n dom = Ok (ADomain d) ->
  NoDup (md_nullables md) /\ md_tasks md = length (d_tasks d).
Proof.
  unfold get_metadata, parse_as_domain. intros E Ep. rewrite Ep in E. cbn [obind] in E. unfold domain_metadata in E.
  apply bind_ok in E as (g & _ & E). apply bind_ok in E as (nulls & En & E). apply bind_ok in E as (r & _ & E).
  injection E as <-. cbn [md_nullables md_tasks]. split; auto.
  unfold compute_nullables in En. apply bind_ok in En as (l & _ & En). injection En as <-.
  eapply Permutation_NoDup; [apply Permutation_sym, (ho_names_ok he Hhe)|]. apply nodup_fold_add. constructor.
Qed.
Lemma compounds_le d l : NoDup l -> (forall x, In x l -> compound d x) -> length l <= length (d_tasks d).
Proof.
  intros Hn Hi. rewrite <- (map_length task_name). apply NoDup_incl_length; auto.
Qed.
Theorem C78_nullables : forall n lf dom md d,
  get_metadata he n lf dom = Ok md -> parse n dom = Ok (ADomain d) ->
  NoDup (md_nullables md)
  /\ (distinct_names d -> (forall m, In m (d_methods d) -> compound d (sym_name (m_task m))) ->
      length (md_nullables md) <= length (d_tasks d)).
Proof.
  intros n lf dom md d E Ep. destruct (metadata_parts n lf dom md d E Ep) as [Hn _]. split; auto.
  intros Hd Hm. apply compounds_le; auto. apply (C24_found_compound he Hhe n lf dom md d E Ep Hd Hm).
Qed.
(** The cycle: every task on it once, except that the first ends it. *)
Theorem C78_cycle : forall n lf dom md d,
  get_metadata he n lf dom = Ok md -> parse n dom = Ok (ADomain d) -> distinct_names d ->
  (forall m, In m (d_methods d) -> compound d (sym_name (m_task m))) ->
  md_recursion md <> NonRecursive ->
  exists first rest, map fst (cycle_of (md_recursion md)) = first :: rest ++ [first]
  /\ NoDup (first :: rest) /\ S (length rest) <= length (d_tasks d).
Proof.
  intros n lf dom md d E Ep Hd Hm Hr. destruct (C26_cycle_genuine he Hhe n lf dom md d E Ep Hd Hr) as (ms & (Hne & Hi & Hn & _) & Hc).
  change (SpecRec.cycle_of (md_recursion md)) with (cycle_of (md_recursion md)) in Hc.
  destruct ms as [|m ms]; [congruence|]. exists (SpecRec.head m), (map SpecRec.head ms). rewrite Hc. cbn [cycle_report]. split; [|split].
  - rewrite map_app, map_map. reflexivity.
  - exact Hn.
  - replace (S (length (map SpecRec.head ms))) with (length (map SpecRec.head (m :: ms))) by reflexivity. apply compounds_le; auto.
    intros x Hx. apply in_map_iff in Hx as (m' & <- & Hm'). apply Hm, Hi, Hm'.
Qed.
Theorem C78_metadata_lines : forall n lf dom md,
  get_metadata he n lf dom = Ok md ->
  exists text, main he swap n lf (CmdMetadata (Content dom)) = Exit [Stdout text] 0
  /\ line_breaks text = 6 + length (md_nullables md) + match md_recursion md with NonRecursive => 0 | _ => 1 end.
Proof.
  intros n lf dom md E. destruct (report_lines he Hhe swap n lf dom md E) as (Ho & _ & Hw). exists (show_metadata md). split; auto.
  rewrite metadata_unlines, unlines_breaks.
  - unfold metadata_lines, recursion_lines, nullable_lines. cbn [length]. rewrite !app_length. cbn [length].
    destruct (md_recursion md), (md_nullables md) as [|x l]; cbn [length app map]; rewrite ?app_length, ?map_length; cbn [length]; lia.
  - apply metadata_plain. eapply Forall_impl; [|exact Hw]. apply plain_word.
Qed.

(** ** The editor *)
Lemma report_once {A} (r : outcome A) o l : report r = Ok (o, l) ->
  (exists a, r = Ok a /\ o = Some a /\ l = []) \/ (exists e, r = Err e /\ o = None /\ length l = 1).
Proof.
  destruct r as [a|e|p|]; cbn [report]; intros E; try discriminate.
  - injection E as <- <-. left. eauto.
  - apply bind_ok in E as (x & _ & E). injection E as <- <-. right. exists e. auto.
Qed.
Theorem C78_domain_diagnostics : forall n text l, diagnose_domain he n text = Ok l -> length l <= 1.
Proof.
  intros n text l E. unfold diagnose_domain in E. apply bind_ok in E as ([o l'] & Er & E). cbn [fst snd] in E.
  apply report_once in Er as [(a & _ & -> & ->)|(e & _ & -> & El)]; [|injection E as <-; lia].
  destruct a as [d|p]; [|injection E as <-; simpl; lia]. apply bind_ok in E as ([o' l''] & Er & E). injection E as <-. cbn [app snd].
  apply report_once in Er as [(b & _ & _ & ->)|(e & _ & _ & El)]; simpl; lia.
Qed.
(** Two only if both documents have a fault. *)
Theorem C78_problem_diagnostics : forall n dom text l, diagnose_problem he n dom text = Ok l ->
  length l <= 2
  /\ (length l = 2 -> (exists e, parse n text = Err e) /\ exists s, dom = Some s /\ exists e, verify he n s None = Err e).
Proof.
  intros n dom text l E. unfold diagnose_problem in E. apply bind_ok in E as ([ot ld] & Ed & E). cbn [fst snd] in E.
  assert ((exists tb, ot = Some tb /\ ld = []) \/ ot = None /\ ld = []
          \/ ot = None /\ length ld = 1 /\ exists s, dom = Some s /\ exists e, verify he n s None = Err e) as Hd.
  { destruct dom as [s|]; [|injection Ed as <- <-; auto]. apply bind_ok in Ed as ([o l'] & Er & Ed). cbn [fst snd] in Ed.
    apply report_once in Er as [(a & Ea & -> & ->)|(e & Ee & -> & El)].
    - destruct a as [d|p]; [|injection Ed as <- <-; auto]. apply bind_ok in Ed as ([o' l''] & Er & Ed). injection Ed as <- <-. cbn [fst snd app].
      apply report_once in Er as [(b & _ & -> & ->)|(e & Ee & -> & El)]; [eauto|]. right. right. split; auto. split; auto.
      exists s. split; auto. exists e. unfold verify, parse_as_domain. rewrite Ea. cbn [obind]. rewrite Ee. auto.
    - injection Ed as <- <-. right. right. split; auto. split; auto. exists s. split; auto. exists e. unfold verify, parse_as_domain.
      rewrite Ee. auto. }
  apply bind_ok in E as ([o l'] & Er & E). cbn [fst snd] in E.
  apply report_once in Er as [(a & Ea & -> & ->)|(e & Ee & -> & El)].
  - destruct Hd as [(tb & -> & ->)|[[-> ->]|(-> & El & _)]].
    + destruct a as [d|p]; [injection E as <-; simpl; split; [lia|discriminate]|].
      apply bind_ok in E as ([o' l''] & Er & E). injection E as <-. cbn [app snd].
      apply report_once in Er as [(b & _ & _ & ->)|(e & _ & _ & El)]; simpl; split; lia.
    + destruct a; injection E as <-; simpl; split; lia.
    + destruct a; injection E as <-; rewrite app_length; simpl; split; lia.
  - assert (l = ld ++ l') as -> by (destruct ot; injection E as <-; auto). rewrite app_length.
    destruct Hd as [(tb & -> & ->)|[[-> ->]|(-> & El' & Hs)]]; [simpl; split; lia..|]. split; [lia|]. eauto.
Qed.
End S.

(** A domain with warnings, nullable tasks and a cycle. *)
Definition chatty : string :=
  ("(define (domain d) (:task a :parameters ()) (:task b :parameters ()) (:task c :parameters ())" ++ nl
  ++ "(:method m1 :parameters () :task (a) :ordered-subtasks (and (b)))" ++ nl
  ++ "(:method m2 :parameters () :task (b) :ordered-subtasks (and (a)))" ++ nl
  ++ "(:method m3 :parameters () :task (c) :ordered-subtasks ()))")%string.
Example C78_example : exists d md,
  @parse uni0 300 chatty = Ok (ADomain d) /\ distinct_names d
  /\ (forall m, In m (d_methods d) -> compound d (sym_name (m_task m)))
  /\ @verify uni0 env_id 300 chatty None = Ok [NoPrimitiveRefinement "a" 1; NoPrimitiveRefinement "b" 1]
  /\ @get_metadata uni0 env_id 300 300 chatty = Ok md /\ md_nullables md = ["c"%string] /\ map fst (cycle_of (md_recursion md)) = ["a"; "b"; "a"]%string.
Proof.
  eexists. eexists. split; [vm_compute; reflexivity|]. split; [|split; [|split; [vm_compute; reflexivity|split; [vm_compute; reflexivity|split; vm_compute; reflexivity]]]].
  - vm_compute. repeat (constructor; [intros Hx; simpl in Hx; intuition discriminate|]). constructor.
  - vm_compute. intuition (subst; auto).
Qed.
(** Two items for a problem: the fault of its domain and its own. *)
Example C78_two_diagnostics : exists l,
  @diagnose_problem uni0 env_id 300 (Some "(define (domain d) 7") "(define (problem q) 7" = Ok l /\ length l = 2.
Proof. eexists. split; [vm_compute; reflexivity|reflexivity]. Qed.

Definition C78_assumptions := (@C78_warnings, @C78_screen, @C78_one_message, @C78_fault_one_line, @C78_nullables, @C78_cycle, @C78_metadata_lines,
  @C78_domain_diagnostics, @C78_problem_diagnostics).
