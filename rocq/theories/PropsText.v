(** Property theorems about renamed documents (C43, on texts) and about what
    reports say (C46-C48).  Specification: SpecSim.v, SpecText.v. *)
From Coq Require Import String Ascii NArith ZArith Bool List Lia PeanoNat Permutation.
From Verif Require Import Base Token Lexer Errors Ast AstLines Parser Graph Semantic Tdg Api Json Cli StrFacts SpecLex LexProofs LexProofs2 LexProofs3
  AstRel ParserProofs ParserStream PropsLex PropsParse PrintText SpecIo JsonProofs SpecBlame PropsSem PropsTdg PropsIo PropsBlame
  SpecSim SimSem SimTdg SimTop PropsSim RenText SpecText TextProofs.
Import ListNotations.
Open Scope list_scope.
Open Scope nat_scope.

Fixpoint cut_last (s : string) : string * option ascii :=
  match s with
  | EmptyString => (""%string, None)
  | String c EmptyString => (""%string, Some c)
  | String c s' => let '(p, o) := cut_last s' in (String c p, o)
  end.
Section S.
Context `{Unicode}.
Variable he : hash_env.
Hypothesis Hhe : hash_env_ok he.

(** ** C43: documents *)
Theorem C43_renamed_syntax : forall f s s', injective f -> renamed f s s' ->
  (exists n a, parse n s = Ok a) <-> (exists n a, parse n s' = Ok a).
Proof.
  intros f s s' Hf Hs. split; intros (n & a & E).
  - destruct (renamed_parse f s s' n a Hs E) as (a' & n' & E' & _). eauto.
  - destruct (renamed_parse_back f s s' n a Hf Hs E) as (a' & n' & E'). eauto.
Qed.
Theorem C43_renamed_verify : forall f dom dom' prob prob', injective f ->
  renamed f dom dom' -> opt_rel (renamed f) prob prob' ->
  (exists n a, parse n dom = Ok a) -> (forall s, prob = Some s -> exists n a, parse n s = Ok a) ->
  exists n0, forall n, n0 <= n ->
    result_sim (ren_uniform f) eq (warnings_sim (ren_uniform f) eq) (verify he n dom prob) (verify he n dom' prob').
Proof.
  intros f dom dom' prob prob' Hf Hd Hp (n & a & E) Hq. destruct (renamed_doc f dom dom' n a Hd E) as (n1 & H1).
  destruct Hp as [|s s' Hs].
  - exists n1. intros m Hm. apply verify_sim; auto using uniform_ok. constructor.
  - destruct (Hq s eq_refl) as (k & b & Es). destruct (renamed_doc f s s' k b Hs Es) as (n2 & H2).
    exists (n1 + n2). intros m Hm. apply verify_sim; auto using uniform_ok; [apply H1; lia|]. constructor. apply H2. lia.
Qed.

(** ** C46 *)
Theorem C46_error_words : forall n dom prob e x, verify he n dom prob = Err (ESem e) -> In x (sem_words e) ->
  word_of dom x \/ exists s, prob = Some s /\ word_of s x.
Proof.
  intros n dom prob e x E Hx. destruct (doc_self dom n) as (L & HL & HdL).
  assert (exists K, (forall y, In y K -> exists s, prob = Some s /\ word_of s y)
     /\ forall f, (forall y, In y K -> f y = y) -> opt_rel (doc_sim (ren_uniform f) eq n) prob prob) as (K & HK & HpK).
  { destruct prob as [s|]; [|exists []; split; [intros y []|constructor]].
    destruct (doc_self s n) as (K & HK & HpK). exists K. split; [eauto|]. intros f Hf. constructor. apply HpK, Hf. }
  destruct (in_dec string_dec x (L ++ K)) as [Hi|Hi].
  { apply in_app_or in Hi as [Hi|Hi]; [left; auto|right; auto]. }
  exfalso. destruct (move_away x (L ++ K) (sem_words e) Hi) as (f & Hf & Hfix & Hout & Hne).
  assert (Hs := verify_sim (ren_uniform f) eq (uniform_ok f Hf) he Hhe n dom dom prob prob
     (proj1 (HdL f (fun y Hy => Hfix y (in_or_app _ _ _ (or_introl Hy))))) (HpK f (fun y Hy => Hfix y (in_or_app _ _ _ (or_intror Hy))))).
  rewrite E in Hs. inversion Hs as [|? ? He| |]; subst. inversion He as [| |? ? Hse]; subst.
  apply sem_words_sim in Hse. apply Hout. rewrite Hse. apply in_map; auto.
Qed.
Theorem C46_warning_words : forall n dom prob ws x l, verify he n dom prob = Ok ws -> In (NoPrimitiveRefinement x l) ws ->
  word_of dom x \/ exists s, prob = Some s /\ word_of s x.
Proof.
  intros n dom prob ws x l E Hx. destruct (doc_self dom n) as (L & HL & HdL).
  assert (exists K, (forall y, In y K -> exists s, prob = Some s /\ word_of s y)
     /\ forall f, (forall y, In y K -> f y = y) -> opt_rel (doc_sim (ren_uniform f) eq n) prob prob) as (K & HK & HpK).
  { destruct prob as [s|]; [|exists []; split; [intros y []|constructor]].
    destruct (doc_self s n) as (K & HK & HpK). exists K. split; [eauto|]. intros f Hf. constructor. apply HpK, Hf. }
  destruct (in_dec string_dec x (L ++ K)) as [Hi|Hi].
  { apply in_app_or in Hi as [Hi|Hi]; [left; auto|right; auto]. }
  exfalso. destruct (move_away x (L ++ K) (map (fun w => match w with NoPrimitiveRefinement s _ => s end) ws) Hi) as (f & Hf & Hfix & Hout & Hne).
  assert (Hs := verify_sim (ren_uniform f) eq (uniform_ok f Hf) he Hhe n dom dom prob prob
     (proj1 (HdL f (fun y Hy => Hfix y (in_or_app _ _ _ (or_introl Hy))))) (HpK f (fun y Hy => Hfix y (in_or_app _ _ _ (or_intror Hy))))).
  rewrite E in Hs. inversion Hs as [? ? (vs & Hv & Hw)| | |]; subst.
  assert (exists y, In y vs /\ warning_sim (ren_uniform f) eq (NoPrimitiveRefinement x l) y) as (y & Hy & Hwy).
  { clear -Hw Hx. induction Hw; simpl in *; [tauto|]. destruct Hx as [->|Hx]; eauto. destruct (IHHw Hx) as (z & ? & ?). eauto. }
  inversion Hwy; subst. apply Hout. apply in_map_iff. eexists. split; [|eapply Permutation_in; eauto]. reflexivity.
Qed.
Theorem C46_metadata_words : forall n l dom m x, get_metadata he n l dom = Ok m -> In x (metadata_words m) -> word_of dom x.
Proof.
  intros n l dom m x E Hx. destruct (doc_self dom n) as (L & HL & HdL).
  destruct (in_dec string_dec x L) as [Hi|Hi]; [auto|].
  exfalso. destruct (move_away x L (metadata_words m) Hi) as (f & Hf & Hfix & Hout & Hne).
  assert (Hs := get_metadata_sim (keep_ids f) eq (keep_ok f Hf) he Hhe n l dom dom (proj2 (HdL f Hfix)) (fun y => eq_refl)).
  rewrite E in Hs. inversion Hs as [? ? (Hm & _)| | |]; subst. destruct Hm as [Hr Hn _ _]. apply Hout.
  unfold metadata_words in *. apply (f_equal cycle_of) in Hr. rewrite cycle_of_ren in Hr. unfold ren_cycle in Hr.
  apply in_app_or in Hx as [Hx|Hx].
  - apply in_or_app. left. eapply Permutation_in; [apply Permutation_sym, Hn|]. apply (in_map f); auto.
  - apply in_or_app. right. apply in_app_or in Hx as [Hx|Hx]; apply in_map_iff in Hx as ((t & y) & <- & Hi'); apply in_or_app.
    + left. rewrite Hr, map_map. apply in_map_iff. exists (t, y). auto.
    + right. rewrite Hr, map_map. apply in_map_iff. exists (t, y). auto.
Qed.
Theorem C46_syntax_words : forall n program e x, parse n program = Err (ESyn e) -> se_found e = TIdent x -> word_of program x.
Proof.
  intros n program e x E Ef. destruct (C45_syntax_error n program e E) as (ts & t & (st & Hr & Ho & _) & Hf & _).
  assert (t = TIdent x) as -> by (destruct Hf as [Hf|Hf]; rewrite Ef in Hf; [auto|destruct t as [| | |[]| | |]; cbn in Hf; congruence]).
  exists (ts ++ [(TIdent x, line (snd (get_token st)))]), (snd (get_token st)). split.
  - eapply reads_app; [exact Hr|]. destruct (get_token st) as [o s] eqn:Eg. cbn [fst snd] in *. subst o.
    econstructor; [exact Eg|constructor].
  - rewrite map_app. apply in_or_app. right. simpl. auto.
Qed.
(** Words are what identifiers are made of. *)
Lemma words_are_words s x : word_of s x -> a_word x.
Proof.
  intros (ts & st & Hr & Hi). revert Hi. induction Hr as [|st t st1 ts st2 Eg _ IH]; simpl; [tauto|].
  intros [->|Hi]; auto. apply C07_content in Eg. apply Eg.
Qed.

(** ** C47 *)
Theorem C47_starts_with_line : forall e m l, show_parsing_error e = Some m -> err_lines e = [l] ->
  (forall a, e <> ESem (InconsistentTaskArity a)) -> at_line m l.
Proof.
  intros e m l E El Ht.
  assert (forall k r, at_line ("line " ++ show_N k ++ ": " ++ r) k) as Hl.
  { intros k r. exists (show_N k), r. split; [reflexivity|apply numeral_show]. }
  destruct e as [e|e|e]; cbn [err_lines] in El.
  - injection El as <-. cbn [show_parsing_error] in E. injection E as <-. unfold show_lex_err.
    destruct (Hl (le_line e) ("'" ++ le_lexeme e ++ match le_type e with InvalidIdentifier => "' is an invalid identifier."
        | InvalidKeyword => "' is an invalid keyword." | InvalidRealNumber => "' is an invalid real number. Expected digits after '.'" end)%string)
      as (d & r & E & Hd). exists d, r. split; auto. 
  - injection El as <-. cbn [show_parsing_error] in E. injection E as <-. apply Hl.
  - cbn [show_parsing_error] in E. destruct e; cbn [sem_lines show_sem_err] in *; try discriminate El; try (injection El as <-);
      try (apply some_inj in E; subst m; apply Hl).
    + exfalso. eapply Ht; reflexivity.
    + apply type_tail in E as (r & ->). apply Hl.
    + apply type_tail in E as (r & ->). apply Hl.
Qed.
Theorem C47_names_every_line : forall e m l, show_parsing_error e = Some m -> In l (err_lines e) ->
  (forall a, e <> ESem (InconsistentTaskArity a)) -> names_line m l.
Proof.
  intros e m l E Hl Ht.
  destruct (err_lines e) as [|l1 [|l2 [|l3 k]]] eqn:El.
  - destruct Hl.
  - destruct Hl as [<-|[]]. destruct (C47_starts_with_line e m l1 E El Ht) as (d & r & -> & Hd).
    exists ""%string, d, (": " ++ r)%string. split; [reflexivity|]. split; auto. cbn. discriminate.
  - assert (exists k d, m = (k ++ show_dup d)%string /\ dup_first d = l1 /\ dup_second d = l2) as (k & d & -> & <- & <-).
    { destruct e as [e|e|[]]; cbn [err_lines sem_lines] in El; try discriminate El; injection El as <- <-;
        cbn [show_parsing_error show_sem_err] in E; apply some_inj in E; subst m;
        eexists _, e; (split; [|split; reflexivity]).
      1: instantiate (1 := "object "%string); reflexivity.
      1: instantiate (1 := "predicate "%string); reflexivity.
      1: instantiate (1 := "action "%string); reflexivity.
      1: instantiate (1 := "compound task "%string); reflexivity.
      1: instantiate (1 := "method "%string); reflexivity.
      1: instantiate (1 := "parameter "%string); reflexivity. }
    unfold show_dup. destruct Hl as [<-|[<-|[]]].
    + exists (k ++ "'" ++ dup_symbol d ++ "' is first defined in ")%string, (show_N (dup_first d)),
        (", and then redefined in line " ++ show_N (dup_second d) ++ ".")%string.
      split; [rewrite !app_assoc_s; cbn [append]; rewrite ?app_assoc_s; reflexivity|]. split; [apply numeral_show|]. cbn. discriminate.
    + exists (k ++ "'" ++ dup_symbol d ++ "' is first defined in line " ++ show_N (dup_first d) ++ ", and then redefined in ")%string,
        (show_N (dup_second d)), "."%string.
      split; [rewrite !app_assoc_s; cbn [append]; rewrite ?app_assoc_s; cbn [append]; rewrite ?app_assoc_s; reflexivity|].
      split; [apply numeral_show|]. cbn. discriminate.
  - exfalso. destruct e as [e|e|[]]; discriminate El.
Qed.
Theorem C47_names_symbols : forall e m x, show_sem_err e = Some m -> In x (sem_words e) -> mentions m x.
Proof.
  assert (forall a x b, mentions (a ++ x ++ b) x) as Hm by (intros; unfold mentions; eauto).
  assert (forall a m x, mentions m x -> mentions (a ++ m) x) as Ha.
  { intros a m x (u & v & ->). exists (a ++ u)%string, v. rewrite !app_assoc_s. reflexivity. }
  assert (forall x b, mentions (x ++ b) x) as H0 by (intros x b; apply (Hm ""%string)).
  assert (forall k d, mentions (k ++ show_dup d) (dup_symbol d)) as Hdup.
  { intros k d. unfold show_dup. repeat first [apply H0 | apply Ha]. }
  assert (forall k u, mentions (show_undef k u) (un_symbol u)) as Hun.
  { intros k u. unfold show_undef. repeat first [apply H0 | apply Ha]. }
  assert (forall t m x, show_type_err t = Some m -> In x (type_words t) -> mentions m x) as Hty.
  { intros t m x E Hx. unfold show_type_err, type_words in *. destruct (ty_expected t) as [ex|], (ty_found t) as [fo|]; try discriminate;
      apply some_inj in E; subst m; rewrite !app_assoc_s; simpl in Hx; repeat destruct Hx as [<-|Hx]; try destruct Hx;
      repeat first [apply H0 | apply Ha]. }
  intros e m x E Hx. destruct e; cbn [show_sem_err sem_words] in *; eauto; try (apply some_inj in E; subst m);
    try (destruct Hx as [<-|[]]); try (destruct Hx; fail); auto.
Qed.
(** The message tells which error it is. *)
Theorem C47_unambiguous : forall n n' dom prob dom' prob' e e' m,
  verify he n dom prob = Err (ESem e) -> verify he n' dom' prob' = Err (ESem e') ->
  show_sem_err e = Some m -> show_sem_err e' = Some m -> reads_same e e'.
Proof.
  assert (forall n dom prob e, verify he n dom prob = Err (ESem e) -> Forall a_word (sem_words e)) as Hw.
  { intros n dom prob e E. apply Forall_forall. intros x Hx.
    destruct (C46_error_words n dom prob e x E Hx) as [Hi|(s & _ & Hi)]; eapply words_are_words; eauto. }
  intros n n' dom prob dom' prob' e e' m E E' Em Em'. apply (sem_message_inj e e' m); eauto.
Qed.
Theorem C47_unambiguous_warnings : forall n n' dom prob dom' prob' ws ws' w w',
  verify he n dom prob = Ok ws -> verify he n' dom' prob' = Ok ws' -> In w ws -> In w' ws' ->
  show_warning w = show_warning w' -> w = w'.
Proof.
  assert (forall n dom prob ws s l, verify he n dom prob = Ok ws -> In (NoPrimitiveRefinement s l) ws -> a_word s) as Hw.
  { intros n dom prob ws s l E Hx. destruct (C46_warning_words n dom prob ws s l E Hx) as [Hi|(t & _ & Hi)]; eapply words_are_words; eauto. }
  intros n n' dom prob dom' prob' ws ws' [s l] [s' l'] E E' Hi Hi' Em. cbn [show_warning] in Em.
  change (": compound task " ++ ?x)%string with (": " ++ ("compound task " ++ x))%string in Em.
  apply line_app in Em as [-> Em]. apply (append_inj_l "compound task ") in Em.
  apply word_app in Em as [-> _]; eauto; cbn; auto.
Qed.
Theorem C47_warning_text : forall s l, at_line (show_warning (NoPrimitiveRefinement s l)) l
  /\ mentions (show_warning (NoPrimitiveRefinement s l)) s.
Proof.
  intros s l. split.
  - exists (show_N l), ("compound task " ++ s ++ " does not have a primitive refinement")%string. split; [reflexivity|apply numeral_show].
  - exists ("line " ++ show_N l ++ ": compound task ")%string, " does not have a primitive refinement"%string.
    cbn [show_warning]. rewrite !app_assoc_s. reflexivity.
Qed.
(** A lexical error message tells line, kind and text. *)
Theorem C47_lexical_unambiguous : forall e e', show_lex_err e = show_lex_err e' -> e = e'.
Proof.
  intros [t x l] [t' x' l'] E. unfold show_lex_err in E. cbn [le_type le_lexeme le_line] in E.
  cbn [append] in E. injection E as E. apply show_N_app in E as [-> E]; [|reflexivity|reflexivity]. injection E as E.
  assert (forall a b c d p q, (a ++ (p ++ String c ""))%string = (b ++ (q ++ String d ""))%string -> (a ++ p)%string = (b ++ q)%string /\ c = d) as Hl.
  { intros a b c d p q Ex. rewrite <- !app_assoc_s in Ex. apply append_last in Ex. auto. }
  assert (forall a b r, (a ++ r)%string = (b ++ r)%string -> a = b) as Hr.
  { intros a b r. revert a b. assert (forall k (a b : string), (a ++ k)%string = (b ++ k)%string -> String.length a = String.length b) as HL.
    { intros k a b Ex. apply (f_equal String.length) in Ex. rewrite !app_length_s in Ex. lia. }
    intros a b Ex. apply HL in Ex as En. revert b Ex En. induction a as [|c a IH]; intros [|d b] Ex En; try discriminate; auto.
    simpl in Ex. injection Ex as -> Ex. f_equal. apply IH; auto. }
  destruct t, t'; try (apply Hr in E; subst; reflexivity); exfalso;
    repeat match type of E with
    | (_ ++ ?p)%string = (_ ++ ?q)%string =>
        let p' := eval vm_compute in (cut_last p) in let q' := eval vm_compute in (cut_last q) in
        match p' with (?p1, Some ?c) => match q' with (?q1, Some ?d) =>
          change p with (p1 ++ String c "")%string in E; change q with (q1 ++ String d "")%string in E;
          apply Hl in E as [E Ec]; try discriminate Ec; clear Ec end end
    end.
Qed.

(** ** C48 *)
Context `{F : Floats}.
Variable swap : bool.
Definition tabbed (s : string) : string := String "009" s.
Lemma report_lines n ln dom m : get_metadata he n ln dom = Ok m ->
  main he swap n ln (CmdMetadata (Content dom)) = Exit [Stdout (show_metadata m)] 0
  /\ (forall s, has_line (show_metadata m) s <-> In s (metadata_lines m)) /\ Forall a_word (metadata_words m).
Proof.
  intros E. assert (Forall a_word (metadata_words m)) as Hw.
  { apply Forall_forall. intros x Hx. eapply words_are_words, C46_metadata_words; eauto. }
  split; [unfold main; rewrite E; reflexivity|]. split; auto.
  intros s. rewrite metadata_unlines. apply has_line_unlines, metadata_plain. eapply Forall_impl; [|exact Hw]. apply plain_word.
Qed.
Lemma in_lines m s : In s (metadata_lines m) <->
  s = "Description"%string \/ s = tabbed ("Hierarchy type: " ++ class_phrase (md_recursion m))
  \/ (md_recursion m <> NonRecursive /\ s = tabbed ("Cycle: " ++ show_cycle (cycle_of (md_recursion m))))
  \/ (md_nullables m = [] /\ s = tabbed "Nullable Tasks: None")
  \/ (md_nullables m <> [] /\ s = tabbed "Nullable Tasks:")
  \/ (exists x, In x (md_nullables m) /\ s = tabbed (tabbed x))
  \/ s = tabbed ("Number of actions: " ++ show_nat (md_actions m))
  \/ s = tabbed ("Number of abstract tasks: " ++ show_nat (md_tasks m))
  \/ s = tabbed ("Number of methods: " ++ show_nat (md_methods m)).
Proof.
  unfold metadata_lines, recursion_lines, nullable_lines, tb. cbn [In app]. rewrite !in_app_iff. cbn [In]. split.
  - intros [<-|[<-|[Hi|[Hi|[<-|[<-|[<-|[]]]]]]]]; auto 10.
    + right. right. left. destruct (md_recursion m); [destruct Hi|destruct Hi as [<-|[]]; (split; [discriminate|reflexivity])..].
    + destruct (md_nullables m) as [|x l]; [destruct Hi as [<-|[]]; auto 10|]. destruct Hi as [<-|Hi].
      * do 4 right. left. split; [discriminate|reflexivity].
      * do 5 right. left. apply in_map_iff in Hi as (y & <- & Hy). exists y. split; auto.
  - intros [->|[->|[[Hn ->]|[[Hn ->]|[[Hn ->]|[(x & Hx & ->)|[->|[->| ->]]]]]]]]; auto 10.
    + right. right. left. destruct (md_recursion m); try congruence; left; reflexivity.
    + rewrite Hn. right. right. right. left. left. reflexivity.
    + right. right. right. left. destruct (md_nullables m); [congruence|]. left. reflexivity.
    + right. right. right. left. destruct (md_nullables m) as [|y l]; [destruct Hx|]. right.
      apply in_map_iff. exists x. split; auto.
Qed.
Ltac pick := repeat match goal with
  | Hx : _ \/ _ |- _ => destruct Hx
  | Hx : _ /\ _ |- _ => destruct Hx
  | Hx : exists _, _ |- _ => destruct Hx
  end.
(** The numbers printed are those of the declarations in the document. *)
Theorem C48_counts : forall n ln dom d m, parse n dom = Ok (ADomain d) -> get_metadata he n ln dom = Ok m ->
  exists text, main he swap n ln (CmdMetadata (Content dom)) = Exit [Stdout text] 0
  /\ forall what k, In (what, k) [("Number of actions: ", length (d_actions d)); ("Number of abstract tasks: ", length (d_tasks d));
                                  ("Number of methods: ", length (d_methods d))]%string ->
       (exists s, has_line text (tabbed (what ++ s))) /\ forall s, has_line text (tabbed (what ++ s)) -> numeral s (N.of_nat k).
Proof.
  intros n ln dom d m Ep E. destruct (report_lines n ln dom m E) as (Ho & Hl & _). exists (show_metadata m). split; auto.
  assert (md_actions m = length (d_actions d) /\ md_tasks m = length (d_tasks d) /\ md_methods m = length (d_methods d)) as (<- & <- & <-).
  { destruct (metadata_inv he Hhe n ln dom m d E Ep) as (g & nulls & _ & _ & _ & _ & Hm). exact Hm. }
  intros what k Hk.
  split.
  - exists (show_nat k). apply Hl, in_lines. destruct Hk as [Ek|[Ek|[Ek|[]]]]; apply pair_equal_spec in Ek as [<- <-]; auto 12.
  - intros s Hs. apply Hl, in_lines in Hs. destruct Hk as [Ek|[Ek|[Ek|[]]]]; apply pair_equal_spec in Ek as [<- <-];
      unfold tabbed in Hs; pick; try discriminate; subst;
      match goal with Hx : String _ (_ ++ s) = String _ _ |- _ => cbn [append] in Hx; injection Hx as -> end; apply numeral_show.
Qed.
(** One line for each nullable task. *)
Theorem C48_nullables : forall n ln dom m, get_metadata he n ln dom = Ok m ->
  exists text, main he swap n ln (CmdMetadata (Content dom)) = Exit [Stdout text] 0
  /\ (forall t, has_line text (tabbed (tabbed t)) <-> In t (md_nullables m))
  /\ (has_line text (tabbed "Nullable Tasks: None") <-> md_nullables m = []).
Proof.
  intros n ln dom m E. destruct (report_lines n ln dom m E) as (Ho & Hl & _). exists (show_metadata m). split; auto. split.
  - intros t. rewrite Hl, in_lines. unfold tabbed. split; intros Ht; [|eauto 12].
    pick; try discriminate. match goal with Hx : String _ _ = String _ _ |- _ => injection Hx as -> end. auto.
  - rewrite Hl, in_lines. unfold tabbed. split; intros Ht; [|auto 12]. pick; try discriminate; auto.
Qed.
Lemma phrase_class r r' : class_phrase r = class_phrase r' <-> same_class r r'.
Proof. destruct r, r'; simpl; split; intros E; try discriminate E; auto; destruct E. Qed.
(** The class of recursion. *)
Theorem C48_class : forall n ln dom m r, get_metadata he n ln dom = Ok m ->
  exists text, main he swap n ln (CmdMetadata (Content dom)) = Exit [Stdout text] 0
  /\ (has_line text (tabbed ("Hierarchy type: " ++ class_phrase r)) <-> same_class r (md_recursion m))
  /\ ((exists s, has_line text (tabbed ("Cycle: " ++ s))) <-> md_recursion m <> NonRecursive).
Proof.
  intros n ln dom m r E. destruct (report_lines n ln dom m E) as (Ho & Hl & _). exists (show_metadata m). split; auto. split.
  - rewrite <- phrase_class, Hl, in_lines. unfold tabbed. split; intros Hr; [|rewrite Hr; auto].
    pick; try discriminate. match goal with Hx : String _ _ = String _ _ |- _ => cbn [append] in Hx; injection Hx as Hx; auto end.
  - split.
    + intros (s & Hs). apply Hl, in_lines in Hs. unfold tabbed in Hs. pick; try discriminate; auto.
    + intros Hr. exists (show_cycle (cycle_of (md_recursion m))). apply Hl, in_lines. auto.
Qed.
(** The cycle drawn is the one found, and can be read back up to the method
    that closes it. *)
Theorem C48_cycle : forall n ln dom m s, get_metadata he n ln dom = Ok m -> cycle_of (md_recursion m) <> [] ->
  exists text, main he swap n ln (CmdMetadata (Content dom)) = Exit [Stdout text] 0
  /\ (has_line text (tabbed ("Cycle: " ++ s)) -> draws s (cycle_of (md_recursion m))
       /\ forall c, draws s c -> Forall (str_all word_byte) (map fst c ++ map snd c) -> same_drawing (cycle_of (md_recursion m)) c).
Proof.
  intros n ln dom m s E Hc. destruct (report_lines n ln dom m E) as (Ho & Hl & Hw). exists (show_metadata m). split; auto.
  intros Hs. apply Hl, in_lines in Hs. assert (s = show_cycle (cycle_of (md_recursion m))) as ->.
  { unfold tabbed in Hs. pick; try discriminate. match goal with Hx : String _ _ = String _ _ |- _ => cbn [append] in Hx; injection Hx as Hx; auto end. }
  assert (Hd := draws_show _ Hc). split; auto. intros c Hd' Hwc. eapply draws_inj; eauto. apply Forall_app in Hw. apply Hw.
Qed.
(** Equal reports: equal metadata, up to the closing method of the cycle. *)
Theorem C48_determines : forall n n' ln ln' dom dom' m m', get_metadata he n ln dom = Ok m -> get_metadata he n' ln' dom' = Ok m' ->
  show_metadata m = show_metadata m' ->
  same_class (md_recursion m) (md_recursion m')
  /\ (cycle_of (md_recursion m) = [] /\ cycle_of (md_recursion m') = [] \/ same_drawing (cycle_of (md_recursion m)) (cycle_of (md_recursion m')))
  /\ (forall t, In t (md_nullables m) <-> In t (md_nullables m'))
  /\ (md_actions m, md_tasks m, md_methods m) = (md_actions m', md_tasks m', md_methods m').
Proof.
  intros n n' ln ln' dom dom' m m' E E' Em.
  destruct (report_lines n ln dom m E) as (Ho & Hl & Hw), (report_lines n' ln' dom' m' E') as (Ho' & Hl' & Hw').
  assert (forall s, In s (metadata_lines m) <-> In s (metadata_lines m')) as Hs by (intros s; rewrite <- Hl, <- Hl', Em; tauto). clear Hl Hl' Ho Ho'.
  assert (class_phrase (md_recursion m) = class_phrase (md_recursion m')) as Hcl.
  { assert (In (tabbed ("Hierarchy type: " ++ class_phrase (md_recursion m))) (metadata_lines m')) as Hi by (apply Hs, in_lines; auto).
    apply in_lines in Hi. unfold tabbed in Hi. pick; try discriminate. match goal with Hx : String _ _ = String _ _ |- _ => cbn [append] in Hx; injection Hx as Hx; auto end. }
  assert (Hph := proj1 (phrase_class _ _) Hcl). split; auto. split.
  -
    assert (md_recursion m = NonRecursive \/ show_cycle (cycle_of (md_recursion m)) = show_cycle (cycle_of (md_recursion m'))) as [Hn|Hc].
    { destruct (md_recursion m) eqn:Er; [left; auto|right; rewrite <- Er in *; assert (md_recursion m <> NonRecursive) as Hne by congruence..];
      (assert (In (tabbed ("Cycle: " ++ show_cycle (cycle_of (md_recursion m)))) (metadata_lines m')) as Hi by (apply Hs, in_lines; auto);
       apply in_lines in Hi; unfold tabbed in Hi; pick; try discriminate; match goal with Hx : String _ _ = String _ _ |- _ => cbn [append] in Hx; injection Hx as Hx; auto end). }
    + left. rewrite Hn in *. destruct (md_recursion m'); try contradiction. auto.
    + destruct (cycle_of (md_recursion m)) as [|x c] eqn:Ec.
      * left. split; auto. destruct (cycle_of (md_recursion m')) as [|[t y] [|z c']]; auto; discriminate Hc.
      * right. assert (cycle_of (md_recursion m') <> []) as Hne'.
        { intros En. rewrite En in Hc. destruct x as [t y], c; discriminate Hc. }
        apply Forall_app in Hw as [_ Hw]. apply Forall_app in Hw' as [_ Hw']. rewrite Ec in Hw.
        eapply draws_inj; [apply draws_show; discriminate|rewrite Hc; apply draws_show; auto|auto|auto].
  - split.
    + intros t. assert (In (tabbed (tabbed t)) (metadata_lines m) <-> In (tabbed (tabbed t)) (metadata_lines m')) as Ht by apply Hs.
      rewrite !in_lines in Ht. unfold tabbed in Ht. split; intros Hi.
      * destruct Ht as [Ht _]. specialize (Ht ltac:(eauto 12)). pick; try discriminate. match goal with Hx : String _ _ = String _ _ |- _ => injection Hx as -> end. auto.
      * destruct Ht as [_ Ht]. specialize (Ht ltac:(eauto 12)). pick; try discriminate. match goal with Hx : String _ _ = String _ _ |- _ => injection Hx as -> end. auto.
    + assert (forall x, In (tabbed x) (metadata_lines m) -> In (tabbed x) (metadata_lines m')) as Hx by (intros; apply Hs; auto).
      assert (md_actions m = md_actions m') as ->.
      { specialize (Hx _ (proj2 (in_lines m _) ltac:(do 6 right; left; reflexivity))). apply in_lines in Hx. unfold tabbed in Hx. pick; try discriminate.
        match goal with Hx : String _ _ = String _ _ |- _ => cbn [append] in Hx; injection Hx as Hx; apply show_N_inj in Hx; lia end. }
      assert (md_tasks m = md_tasks m') as ->.
      { specialize (Hx _ (proj2 (in_lines m _) ltac:(do 7 right; left; reflexivity))). apply in_lines in Hx. unfold tabbed in Hx. pick; try discriminate.
        match goal with Hx : String _ _ = String _ _ |- _ => cbn [append] in Hx; injection Hx as Hx; apply show_N_inj in Hx; lia end. }
      assert (md_methods m = md_methods m') as ->.
      { specialize (Hx _ (proj2 (in_lines m _) ltac:(do 8 right; reflexivity))). apply in_lines in Hx. unfold tabbed in Hx. pick; try discriminate.
        match goal with Hx : String _ _ = String _ _ |- _ => cbn [append] in Hx; injection Hx as Hx; apply show_N_inj in Hx; lia end. }
      reflexivity.
Qed.
End S.

Definition text_theorems := (
  @C43_renamed_syntax,
  @C43_renamed_verify,
  @C46_error_words,
  @C46_warning_words,
  @C46_metadata_words,
  @C46_syntax_words,
  @C47_starts_with_line,
  @C47_names_every_line,
  @C47_names_symbols,
  @C47_unambiguous,
  @C47_unambiguous_warnings,
  @C47_warning_text,
  @C47_lexical_unambiguous,
  @C48_counts,
  @C48_nullables,
  @C48_class,
  @C48_cycle,
  @C48_determines).

(** ** Concrete cases *)
Open Scope string_scope.
(** Documents that are compared token by token. *)
Fixpoint after `{Unicode} (n : nat) (st : lstate) : lstate :=
  match n with O => st | S n' => after n' (snd (get_token st)) end.
Lemma stream_more `{Unicode} (g : lex_out * N -> lex_out * N) : forall k st st', (g (LTok TEOF, line (after k st)) = (LTok TEOF, line (after k st'))) ->
  rest (after k st) = "" -> rest (after k st') = "" ->
  stream k st' = map g (stream k st) -> Forall (fun i => exists t, fst i = LTok t) (stream k st) -> Forall (fun i => exists t, fst i = LTok t) (stream k st') ->
  forall n, stream n st' = map g (stream n st).
Proof.
  assert (forall n l, stream n (mkL "" l) = repeat (LTok TEOF, l) n) as He.
  { induction n as [|n IH]; intros l; [reflexivity|]. cbn [stream repeat]. rewrite gap_eof by constructor. cbn [count_nl line]. rewrite N.add_0_r, IH. reflexivity. }
  induction k as [|k IH]; intros st st' Hl Hr Hr' Hs Ht Ht' n.
  - cbn [after] in *. destruct st as [r l], st' as [r' l']. cbn [rest line] in *. subst. rewrite !He. clear -Hl.
    induction n; cbn [repeat map]; congruence.
  - destruct n as [|n]; [reflexivity|]. cbn [after] in *. cbn [stream] in *. destruct (get_token st) as [o s1], (get_token st') as [o' s2].
    cbn [snd map] in *. inversion Ht as [|? ? (t & Et) Hts]; subst. inversion Ht' as [|? ? (t' & Et') Hts']; subst. cbn [fst] in *. subst o o'.
    injection Hs as Hs0 Hs. rewrite (IH s1 s2); auto. f_equal. exact Hs0.
Qed.
Definition ren_dom (x : string -> string) : string :=
  "(define (domain " ++ x "d" ++ ")" ++ nl ++
  " (:predicates (" ++ x "p" ++ " ?" ++ x "x" ++ "))" ++ nl ++
  " (:action " ++ x "a" ++ " :parameters (?" ++ x "y" ++ ") :effect (" ++ x "q" ++ " ?" ++ x "y" ++ ")))" ++ nl.
Example C43_renamed_example : injective prime
  /\ @renamed uni0 prime (ren_dom (fun x => x)) (ren_dom prime)
  /\ @verify uni0 env_id 300 (ren_dom (fun x => x)) None = Err (ESem (UndefinedPredicate (mkUndef "q" 3)))
  /\ @verify uni0 env_id 300 (ren_dom prime) None = Err (ESem (UndefinedPredicate (mkUndef "q_" 3))).
Proof.
  split; [apply prime_inj|]. split.
  { intros k. apply (@stream_more uni0 _ 60); try (vm_compute; reflexivity);
      (match goal with |- Forall _ ?l => let v := eval vm_compute in l in change l with v end; repeat constructor; eexists; reflexivity). }
  split; vm_compute; reflexivity.
Qed.
(** The name in the message is a word of the document. *)
Example C46_example : exists e, @verify uni0 env_id 300 (ren_dom prime) None = Err (ESem e) /\ In "q_" (sem_words e).
Proof. eexists. split; [vm_compute; reflexivity|]. simpl; auto. Qed.
Definition arity_dom (gap : string) : string :=
  "(define (domain d) (:task t :parameters ())" ++ gap ++ "(:method m :parameters (?x) :task (t ?x) :subtasks ()))" ++ nl.
(** A wrong number of arguments of a method's task is reported without its line. *)
Theorem C47_task_arity_line_refuted : exists dom dom' e e' m,
  @verify uni0 env_id 300 dom None = Err (ESem e) /\ @verify uni0 env_id 300 dom' None = Err (ESem e')
  /\ err_lines (ESem e) <> err_lines (ESem e') /\ show_sem_err e = Some m /\ show_sem_err e' = Some m
  /\ (forall l, ~ names_line m l).
Proof.
  exists (arity_dom " "), (arity_dom nl). do 3 eexists.
  split; [vm_compute; reflexivity|]. split; [vm_compute; reflexivity|]. split; [discriminate|].
  split; [vm_compute; reflexivity|]. split; [vm_compute; reflexivity|].
  intros l (a & d & r & E & _).
  do 60 (destruct a as [|? a]; [cbn in E; discriminate E|cbn in E; injection E as _ E || discriminate E]).
Qed.
(** The kind of argument list with a type error is not said. *)
Example C47_type_kind_example : show_sem_err (InconsistentPredicateArgType (mkTypeErr (Some "a") (Some "b") "x" 3))
  = show_sem_err (InconsistentTaskArgType (mkTypeErr (Some "a") (Some "b") "x" 3)).
Proof. reflexivity. Qed.
Example C47_example : exists e m, @verify uni0 env_id 300 (ren_dom prime) None = Err (ESem e)
  /\ show_parsing_error (ESem e) = Some m /\ err_lines (ESem e) = [3%N] /\ m = "line 3: predicate q_ is not defined.".
Proof. do 2 eexists. split; [vm_compute; reflexivity|]. split; [vm_compute; reflexivity|]. split; reflexivity. Qed.
Example C48_example : exists m d, @parse uni0 300 (loop_dom "x" "y") = Ok (ADomain d)
  /\ @get_metadata uni0 env_id 300 300 (loop_dom "x" "y") = Ok m
  /\ cycle_of (md_recursion m) <> [] /\ show_cycle (cycle_of (md_recursion m)) = "[t]-(m)->[t]" /\ length (d_methods d) = 1.
Proof.
  do 2 eexists. split; [vm_compute; reflexivity|]. split; [vm_compute; reflexivity|]. split; [discriminate|]. split; vm_compute; reflexivity.
Qed.
