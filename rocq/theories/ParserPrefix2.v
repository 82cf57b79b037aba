(** The parsing functions, one by one: each fails at the first token that cannot
    continue it, see ParserPrefix. *)
From Coq Require Import String Ascii NArith ZArith Bool List Lia PeanoNat.
From Verif Require Import Base Token Lexer Errors Ast Parser StrFacts SpecLex LexProofs LexProofs2 LexProofs3
  ParserStream GrammarSound GrammarComplete SpecExpect ParserPrefix ParserShapes.
Import ListNotations.
Open Scope list_scope.
Open Scope nat_scope.

Ltac pr := solve [repeat (apply Forall_cons || apply Forall_nil); first [exact I | exact x_printable | discriminate | assumption]].
Ltac ib l := eapply (i_bind _ l); [|pr| |].
Ltac a1 := first [apply acc_get; [first [exact I | exact x_printable | assumption]|] | apply acc_pos; intros ? | apply acc_peek | apply acc_ret | apply acc_retb ]; cbn beta iota delta [peeked].
Ltac acc := repeat a1; unfold PT; auto.

(** The message of a test of the next token. *)
Ltac ph := first [eassumption | constructor].
(** The tokens a message names, one by one. *)
Ltac each := let u := fresh "u" in let w := fresh "w" in let Hw := fresh "Hw" in let Hc := fresh "Hc" in let Hq := fresh "Hq" in
  intros u (w & Hw & Hc) Hq; unfold formula_starts, kw, open_, close_ in Hw; cbn [In] in Hw;
  repeat match type of Hw with _ \/ _ => destruct Hw as [<-|Hw] end; try (destruct Hw; fail);
  cbn [covers] in Hc; first [subst u | destruct Hc as (? & ->)]; try clear Hw.
(** The others fail at once. *)
Ltac listed := match goal with |- named _ ?t => unfold formula_starts, kw, open_, close_;
  first [exists (One t); split; [cbn [In]; auto 12; fail|reflexivity]
        |exists Identifier; split; [cbn [In]; auto 12; fail|cbn [covers]; eauto; fail]
        |exists Probability; split; [cbn [In]; auto 12; fail|cbn [covers]; eauto; fail]
        |exists Requirement; split; [cbn [In]; auto 12; fail|cbn [covers]; eauto; fail]] end.
Ltac others := let E := fresh "E" in intros E; first [discriminate E | let u := fresh "u" in let Hu := fresh "Hu" in intros u Hu; toks_in u;
  first [apply imm_syn | left; apply imm_syn | right; apply immn_get; apply imm_syn
        | left; eexists (fun l => inl (ESyn (mkSynErr _ _ l))); split; [reflexivity|]; split; [reflexivity|]; intros l; simpl; eauto 6; fail
        | exfalso; apply Hu; listed]].
Ltac tell p := eexists _, _; split; [apply p|]; split; [each|others].

Section Prefix2.
Context `{Unicode}.

Notation LP := (TPunct LParen).
Notation RP := (TPunct RParen).
Notation X := (TIdent "x").

(** ** Lists of symbols *)
Definition W (l : list symbol) : Prop := forall s, In s l -> (sym_type s = None <-> sym_type_pos s = None).
Lemma W_nil : W [].
Proof. intros s []. Qed.
Lemma W_typed r t tp o : W r -> W (r ++ map (typed t tp) o).
Proof.
  intros Hr s Hs. apply in_app_or in Hs as [Hs|Hs]; auto. apply in_map_iff in Hs as (x & <- & _). simpl. split; discriminate.
Qed.
Lemma W_plain r o : W r -> W (r ++ map plain o).
Proof.
  intros Hr s Hs. apply in_app_or in Hs as [Hs|Hs]; auto. apply in_map_iff in Hs as (x & <- & _). simpl. tauto.
Qed.
Definition Wn (l : list symbol) (g : option token) : Prop := g = None /\ W l.
Lemma acc_args N o r : 1 <= N -> W r -> Acc [RP] (bind get (args_loop N o r)) W.
Proof. intros Hn Hr. destruct N as [|N]; [lia|]. apply acc_get; [exact I|]. cbn [args_loop]. apply acc_ret. apply W_plain. auto. Qed.
Lemma args_v : forall n N o r, n + 2 <= N -> W r ->
  VI None (bind get (args_loop n o r)) (bind get (args_loop N o r)) Wn W.
Proof.
  induction n as [|n IH]; intros N o r Hn Hr.
  - apply (i_get None [RP]); [exact I|apply acc_args; auto; lia|]. intros t. right. right. right. reflexivity.
  - destruct N as [|N]; [lia|].
    apply (i_get (Some "an identifier"%string) [RP]); [|apply acc_args; auto; lia|].
    { tell ph_identifier. exists [RP]. apply acc_get; [assumption|]. cbn [args_loop]. apply acc_pos. intros p. apply acc_args; auto; lia. }
    cbn [args_loop]. toks t.
    + here. apply i_pos. intros p. apply IH; auto; lia.
    + here. assert (forall s, printable (TIdent s) -> Acc [TIdent s; RP] (ty <- get; tp <- pos;
          match ty with
          | TIdent t => next <- get; args_loop N [] (r ++ map (typed t tp) o) next
          | other => syn "The type of objects" other
          end)%parser W) as Hty.
      { intros s Hs. apply acc_get; [exact Hs|]. apply acc_pos. intros p. apply acc_args; [lia|]. apply W_typed; auto. }
      apply (i_get (Some "The type of objects"%string) [X; RP]); [|apply Hty; exact x_printable|].
      { apply (told_ident _ _ [RP] All); [constructor|exact Hty|]. intros u Hu. toks_in u; try (exfalso; eapply Hu; reflexivity);
        eexists (fun l => inl (ESyn (mkSynErr _ _ l))); (split; [reflexivity|]); (split; [reflexivity|]); intros l; simpl; eauto 6. }
      toks t; try (right; left; eexists (fun l => inl (ESyn (mkSynErr _ _ l))); split; [reflexivity|]; split; [reflexivity|];
        intros l; simpl; eauto 6).
      here. apply i_pos. intros p. apply IH; [lia|]. apply W_typed; auto.
    + here. apply i_ret. split; auto. apply W_plain; auto.
Qed.
Lemma parse_args_v n N : n + 2 <= N -> VI None (parse_args n) (parse_args N) Wn W.
Proof. intros. apply args_v; auto. apply W_nil. Qed.
Lemma acc_parse_args N : 1 <= N -> Acc [RP] (parse_args N) W.
Proof. intros. apply acc_args; auto. apply W_nil. Qed.

Ltac fin := apply i_ret; reflexivity.
Ltac accargs := apply (acc_bind [RP] [] (parse_args _) _ W); [apply acc_parse_args; lia|pr|intros; acc].
Ltac accargs_then l := apply (acc_bind [RP] l (parse_args _) _ W); [apply acc_parse_args; lia|pr|intros].

Lemma acc_requirements N acc0 : 1 <= N -> Acc [RP] (parse_requirements N acc0) PT.
Proof. intros. destruct N as [|N]; [lia|]. cbn [parse_requirements]. acc. Qed.
Lemma requirements_v : forall n N acc0, n + 2 <= N ->
  VI None (parse_requirements n acc0) (parse_requirements N acc0) N0 PT.
Proof.
  induction n as [|n IH]; intros N acc0 Hn; [apply v_fuel|]. destruct N as [|N]; [lia|].
  apply (g_req_rp [RP]); [tell ph_requirement|apply (acc_requirements (S N)); lia| |].
  - exists [RP]. apply acc_get; [assumption|]. apply acc_requirements. lia.
  - exists []. apply (acc_requirements (S N)). lia.
  - intros r. apply IH. lia.
  - fin.
Qed.

Lemma acc_predicates F N acc0 : 1 <= N -> Acc [RP] (parse_predicates F N acc0) PT.
Proof. intros. destruct N as [|N]; [lia|]. cbn [parse_predicates]. acc. Qed.
Lemma acc_predicate F : 1 <= F -> Acc [X; RP] (parse_predicate_definition F) PT.
Proof. intros. unfold parse_predicate_definition. acc. accargs. Qed.
Lemma predicate_v f F : f + 2 <= F -> VI None (parse_predicate_definition f) (parse_predicate_definition F) N0 PT.
Proof.
  intros. eapply (g_ident _ [RP]); [ph|intros ? ?|].
  - acc. accargs.
  - intros s. apply i_pos. intros p. ib (@nil token); [apply parse_args_v; lia|intros; acc|].
    intros a g1 [-> _]. fin.
Qed.
Lemma predicates_v : forall n N f F acc0, n + 2 <= N -> f + 2 <= F ->
  VI None (parse_predicates f n acc0) (parse_predicates F N acc0) N0 PT.
Proof.
  induction n as [|n IH]; intros N f F acc0 Hn Hf; [apply v_fuel|]. destruct N as [|N]; [lia|].
  apply (g_lp_rp [RP]); [|apply (acc_predicates F (S N)); lia| |fin].
  { tell ph_predicate. exists [X; RP; RP]. a1. apply (acc_bind [X; RP] [RP] _ _ PT); [apply acc_predicate; lia|pr|]. intros a _. apply (acc_predicates F N). lia. }
  ib [RP]; [apply predicate_v; lia|intros a _; apply (acc_predicates F N); lia|].
  intros a g1 ->. apply IH; lia.
Qed.
Lemma acc_functions F N acc0 : 1 <= N -> Acc [RP] (parse_functions F N acc0) PT.
Proof. intros. destruct N as [|N]; [lia|]. cbn [parse_functions]. acc. Qed.
Lemma acc_function F : 1 <= F -> Acc [X; RP] (parse_function_definition F) PT.
Proof. intros. unfold parse_function_definition. acc. accargs. Qed.
Lemma function_v f F : f + 2 <= F -> VI None (parse_function_definition f) (parse_function_definition F) N0 PT.
Proof.
  intros. eapply (g_ident _ [RP]); [ph|intros ? ?|].
  - acc. accargs.
  - intros s. apply i_pos. intros p. ib (@nil token); [apply parse_args_v; lia|intros; acc|].
    intros a g1 [-> _]. fin.
Qed.
Lemma functions_v : forall n N f F acc0, n + 2 <= N -> f + 2 <= F ->
  VI None (parse_functions f n acc0) (parse_functions F N acc0) N0 PT.
Proof.
  induction n as [|n IH]; intros N f F acc0 Hn Hf; [apply v_fuel|]. destruct N as [|N]; [lia|].
  apply (g_lp_rp [RP]); [|apply (acc_functions F (S N)); lia| |fin].
  { tell ph_function. exists [X; RP; RP]. a1. apply (acc_bind [X; RP] [RP] _ _ PT); [apply acc_function; lia|pr|]. intros a _. apply (acc_functions F N). lia. }
  ib [RP]; [apply function_v; lia|intros a _; apply (acc_functions F N); lia|].
  intros a g1 ->. apply IH; lia.
Qed.

(** ** Formulas *)
Definition Qf (fm : formula) (ts : list (token * N)) (g : option token) : Prop :=
  g = None /\ (fm = FEmpty -> (exists l, ts = [(RP, l)]) \/ (exists l' l, ts = [(LP, l'); (RP, l)])).
Definition Pf (fm : formula) : Prop := fm <> FEmpty.
Lemma formula_S fuel n' : parse_formula fuel (S n') = (
    t <- get;
    match t with
    | TPunct RParen => ret FEmpty
    | TPunct LParen =>
      u <- get;
      match u with
      | TOp ONot =>
        f <- parse_formula fuel n';
        c <- get;
        match c with
        | TPunct RParen => ret (FNot f)
        | other => syn "closing the not operator with ')'" other
        end
      | TOp OAnd => fs <- connective fuel n' []; ret (FAnd fs)
      | TOp OXor => fs <- connective fuel n' []; ret (FXor fs)
      | TOp OOr => fs <- connective fuel n' []; ret (FOr fs)
      | TOp OEqual =>
        t1 <- get;
        match t1 with
        | TIdent p1 =>
          t2 <- get;
          match t2 with
          | TIdent p2 =>
            c <- get;
            match c with
            | TPunct RParen => ret (FEquals p1 p2)
            | other => syn "equality's closing parenthesis" other
            end
          | other => syn "right hand side of the equality" other
          end
        | other => syn "left hand side of the equality" other
        end
      | TOp OForAll =>
        t1 <- get;
        match t1 with
        | TPunct LParen =>
          params <- parse_args fuel;
          f <- parse_formula fuel n';
          c <- get;
          match c with
          | TPunct RParen => ret (FForAll params f)
          | other => syn "')' to close the forall statement" other
          end
        | other => syn "'(' after forall keyword" other
        end
      | TOp OExists =>
        t1 <- get;
        match t1 with
        | TPunct LParen =>
          params <- parse_args fuel;
          f <- parse_formula fuel n';
          c <- get;
          match c with
          | TPunct RParen => ret (FExists params f)
          | other => syn "')' to close the existential statement" other
          end
        | other => syn "'(' after existential quantification keyword" other
        end
      | TOp OProbabilistic => fs <- branches fuel n' []; ret (FAnd fs)
      | TIdent name =>
        p <- pos; vars <- parse_args fuel; ret (FAtom (mkPred name p vars))
      | TPunct RParen => ret FEmpty
      | other => syn "a boolean formula" other
      end
    | other => syn "a (potentially empty) boolean formula definition" other
    end
)%parser.
Proof. reflexivity. Qed.
Lemma connective_S fuel n' acc : connective fuel (S n') acc = (
    f <- parse_formula fuel n';
    match f with
    | FEmpty => ret acc
    | _ => connective fuel n' (acc ++ [f])
    end
)%parser.
Proof. reflexivity. Qed.
Lemma branches_S fuel n' acc : branches fuel (S n') acc = (
    t <- get;
    match t with
    | TPunct RParen => ret acc
    | TNumber w =>
      f <- parse_formula fuel n';
      match f with
      | FEmpty => syn "a formula following the probability" (TPunct RParen)
      | _ => branches fuel n' (acc ++ [FWeighted w f])
      end
    | other => syn "a probability or ')' to close the probabilistic block" other
    end
)%parser.
Proof. reflexivity. Qed.
Definition Rf (fm : formula) (g : option token) : Prop := g = None /\ fm <> FEmpty.
Lemma acc_formula F N : 1 <= F -> 1 <= N -> Acc [LP; X; RP] (parse_formula F N) Pf.
Proof.
  intros. destruct N as [|N]; [lia|]. rewrite formula_S. acc.
  apply (acc_bind [RP] [] (parse_args F) _ W); [apply acc_parse_args; lia|pr|]. intros; acc. discriminate.
Qed.
Lemma acc_connective F N acc0 : 2 <= N -> Acc [RP] (connective F N acc0) PT.
Proof.
  intros. destruct N as [|[|N]]; [lia|lia|]. rewrite connective_S, formula_S.
  apply (acc_bind [RP] [] _ _ (fun f => f = FEmpty)); [acc|pr|]. intros a ->. acc.
Qed.
Lemma acc_branches F N acc0 : 1 <= N -> Acc [RP] (branches F N acc0) PT.
Proof. intros. destruct N as [|N]; [lia|]. rewrite branches_S. acc. Qed.

Ltac accform l := apply (acc_bind [LP; X; RP] l (parse_formula _ _) _ Pf); [apply acc_formula; lia|pr|intros].
Lemma acc_listed toks (m : P (list formula)) (c : list formula -> formula) :
  (forall l, c l <> FEmpty) -> Acc toks m PT -> Acc toks (bind m (fun l => ret (c l))) Pf.
Proof.
  intros Hc Hm. rewrite <- (app_nil_r toks). apply (acc_bind toks [] m _ PT); [exact Hm|constructor|]. intros; acc; apply Hc.
Qed.
(** Every start of a formula can be continued. *)
Ltac starts pre :=
  [> exists [LP; X; RP; RP]; acc; accform [RP]; acc; discriminate
  | exists [RP]; pre; a1; apply acc_listed; [discriminate|]; apply acc_connective; lia
  | exists [RP]; pre; a1; apply acc_listed; [discriminate|]; apply acc_connective; lia
  | exists [RP]; pre; a1; apply acc_listed; [discriminate|]; apply acc_connective; lia
  | exists [X; X; RP]; acc; discriminate
  | exists [LP; RP; LP; X; RP; RP]; acc; accargs_then [LP; X; RP; RP]; accform [RP]; acc; discriminate
  | exists [LP; RP; LP; X; RP; RP]; acc; accargs_then [LP; X; RP; RP]; accform [RP]; acc; discriminate
  | exists [RP]; pre; a1; apply acc_listed; [discriminate|]; apply acc_branches; lia
  | exists [RP]; acc; accargs_then (@nil token); acc; discriminate ].
Lemma acc_starts F N : 1 <= F -> 3 <= N -> forall u, named formula_starts u -> printable u ->
  exists toks, Acc (LP :: u :: toks) (parse_formula F N) Pf.
Proof.
  intros Hf Hn u Hu Hq. destruct N as [|N]; [lia|]. rewrite formula_S.
  revert u Hu Hq. each; starts a1.
Qed.
(** A formula followed by ')'. *)
Lemma closed_v (m M : P formula) x full (c : formula -> formula) :
  phrase x [close_] full -> (forall f, c f <> FEmpty) -> VI None m M N0 PT ->
  VI None (f <- m; t <- get; match t with TPunct RParen => ret (c f) | other => syn x other end)%parser
          (f <- M; t <- get; match t with TPunct RParen => ret (c f) | other => syn x other end)%parser Rf Pf.
Proof.
  intros Hph Hc Hm. ib [RP]; [exact Hm|intros; acc; apply Hc|]. intros a g1 ->.
  eapply (g_rp _ [RP]); [ph|reflexivity|acc; apply Hc|]. apply i_ret. split; auto.
Qed.
Lemma quant_v f F n N x y fx fy (c : list symbol -> formula -> formula) :
  phrase x [close_] fx -> phrase y [open_] fy -> (forall l fm, c l fm <> FEmpty) -> f + 2 <= F -> 1 <= N -> VI None (parse_formula f n) (parse_formula F N) N0 PT ->
  VI None (t <- get; match t with
    | TPunct LParen => l <- parse_args f; fm <- parse_formula f n;
       c0 <- get; match c0 with TPunct RParen => ret (c l fm) | other => syn x other end
    | other => syn y other end)%parser
   (t <- get; match t with
    | TPunct LParen => l <- parse_args F; fm <- parse_formula F N;
       c0 <- get; match c0 with TPunct RParen => ret (c l fm) | other => syn x other end
    | other => syn y other end)%parser Rf Pf.
Proof.
  intros Hx Hy Hc Hf Hn Hm.
  assert (forall a, Acc [LP; X; RP; RP] (fm <- parse_formula F N;
     c0 <- get; match c0 with TPunct RParen => ret (c a fm) | other => syn x other end)%parser Pf) as Ha.
  { intros a. accform [RP]. acc. apply Hc. }
  eapply (g_lp _ [LP; RP; LP; X; RP; RP]); [ph|reflexivity| |].
  - acc. accargs_then [LP; X; RP; RP]. apply Ha.
  - ib [LP; X; RP; RP]; [apply parse_args_v; lia|intros; apply Ha|]. intros a g1 [-> _]. eapply closed_v; eauto.
Qed.

Lemma formula_v : forall n,
  (forall N f F, n + 2 <= N -> f + 2 <= F -> V None (parse_formula f n) (parse_formula F N) Qf Pf)
  /\ (forall N f F acc0, n + 2 <= N -> f + 2 <= F -> VI None (connective f n acc0) (connective F N acc0) N0 PT)
  /\ (forall N f F acc0, n + 2 <= N -> f + 2 <= F -> VI None (branches f n acc0) (branches F N acc0) N0 PT).
Proof.
  induction n as [|n (IHf & IHc & IHb)]; (split; [|split]); intros N f F; intros; try apply v_fuel;
    (destruct N as [|N]; [lia|]).
  - assert (Ha := acc_formula F (S N) ltac:(lia) ltac:(lia)). rewrite formula_S in Ha. rewrite !formula_S.
    assert (forall (m M : P formula) t, VI None m M Rf Pf ->
        V None m M (fun a us g1 => forall l l0, Qf a ((LP, l0) :: (t, l) :: us) g1) Pf) as Hlift.
    { intros m M t Hv. eapply v_post; [exact Hv| |auto]. intros a ts g1 [-> Hn] l l0. split; [auto|congruence]. }
    assert (VI None (parse_formula f n) (parse_formula F N) N0 PT) as IHf'.
    { eapply v_post; [apply IHf; lia| |]; [intros b ts g1 [-> _]; reflexivity|intros b Hb; exact I]. }
    assert (forall (m M : P (list formula)) c, (forall l, c l <> FEmpty) -> VI None m M N0 PT ->
        VI None (bind m (fun l => ret (c l))) (bind M (fun l => ret (c l))) Rf Pf) as Hmap.
    { intros m M c Hc Hv. ib (@nil token); [exact Hv|intros; acc; apply Hc|]. intros a g1 ->. apply i_ret. split; auto. }
    apply (g_v_lp_rp [LP; X; RP]); [tell ph_formula; eexists; exact Ha|exact Ha| |]; clear Ha.
    { apply v_ret. intros l. split; auto. left. eauto. }
    apply (g_v_formula [X; RP]).
    + tell ph_formula_start; starts idtac.
    + acc. accargs_then (@nil token). acc. discriminate.
    + apply Hlift. eapply closed_v; [ph|discriminate|]. auto.
    + apply Hlift. apply Hmap; [discriminate|]. apply IHc; lia.
    + apply Hlift. apply Hmap; [discriminate|]. apply IHc; lia.
    + apply Hlift. apply Hmap; [discriminate|]. apply IHc; lia.
    + apply Hlift. eapply (g_ident _ [X; RP]); [ph|intros ? ?; acc; discriminate|]. intros s.
      eapply (g_ident _ [RP]); [ph|intros ? ?; acc; discriminate|]. intros s1.
      eapply (g_rp _ [RP]); [ph|reflexivity|acc; discriminate|]. apply i_ret. split; [auto|discriminate].
    + apply Hlift. eapply quant_v; [ph|ph|discriminate|lia|lia|auto].
    + apply Hlift. eapply quant_v; [ph|ph|discriminate|lia|lia|auto].
    + apply Hlift. apply Hmap; [discriminate|]. apply IHb; lia.
    + intros s. apply Hlift. apply i_pos. intros p. ib (@nil token); [apply parse_args_v; lia|intros; acc; discriminate|].
      intros a g1 [-> _]. apply i_ret. split; [auto|discriminate].
    + apply v_ret. intros l l0. split; [auto|]. right. eauto.
  - rewrite !connective_S. eapply (v_bind _ [RP]); [apply IHf; lia|pr| |].
    { intros a Ha. assert (Acc [RP] (connective F N (acc0 ++ [a])) PT) by (apply acc_connective; lia).
      destruct a; auto. exfalso. apply Ha. reflexivity. }
    intros a ts g1 [-> Ha]. left. destruct a; try (apply IHc; lia). apply v_ret. reflexivity.
  - assert (Ha := acc_branches F (S N) acc0 ltac:(lia)). rewrite branches_S in Ha. rewrite !branches_S.
    apply (g_rp_number [RP]); [|exact Ha|fin|].
    { tell ph_probability.
      - exists [LP; X; RP; RP]. a1. apply (acc_bind [LP; X; RP] [RP] _ _ Pf); [apply acc_formula; lia|pr|]. intros a Hne.
        assert (Acc [RP] (branches F N (acc0 ++ [FWeighted x a])) PT) by (apply acc_branches; lia).
        destruct a; auto. exfalso. apply Hne. reflexivity.
      - exists []. exact Ha. }
    clear Ha. intros w. destruct n as [|n]; [apply v_fuel|].
    assert (forall a, Pf a -> Acc [RP] (match a with
              | FEmpty => syn "a formula following the probability" RP
              | _ => branches F N (acc0 ++ [FWeighted w a]) end) PT) as Ha.
    { intros a Ha. assert (Acc [RP] (branches F N (acc0 ++ [FWeighted w a])) PT) by (apply acc_branches; lia).
      destruct a; auto. exfalso. apply Ha. reflexivity. }
    eapply (v_bind _ [RP]); [apply IHf; lia|pr|exact Ha|].
    intros a ts g1 [-> He]. destruct a; try (left; apply IHb; lia). right. split; auto. split; auto.
    destruct (He eq_refl) as [(l & ->)|(l' & l & ->)].
    + exists [], RP, l, [LP; X; RP; RP]. eexists _, _. split; [reflexivity|]. split; [apply imm_syn|].
      assert (Acc [LP; X; RP; RP] (bind (parse_formula F N) (fun a => match a with
              | FEmpty => syn "a formula following the probability" RP
              | _ => branches F N (acc0 ++ [FWeighted w a]) end)) PT) as Hb.
      { apply (acc_bind [LP; X; RP] [RP] _ _ Pf); [apply acc_formula; lia|pr|exact Ha]. }
      split; [exact Hb|]. split; [apply ph_weighted|]. each. exists [X; RP; RP]. exact Hb.
    + exists [(LP, l')], RP, l, [X; RP; RP]. eexists _, _. split; [reflexivity|]. split; [apply imm_syn|].
      split; [apply (acc_bind [LP; X; RP] [RP] _ _ Pf); [apply acc_formula; lia|pr|exact Ha]|]. split; [apply ph_weighted_start|].
      intros u Hu Hq. destruct (acc_starts F N ltac:(lia) ltac:(lia) u Hu Hq) as (tk & Htk). exists (tk ++ [RP]).
      change (map fst [(LP, l')] ++ u :: tk ++ [RP]) with ((LP :: u :: tk) ++ [RP]).
      apply (acc_bind _ [RP] _ _ Pf); [exact Htk|pr|exact Ha].
Qed.
Lemma parse_formula_v n N f F : n + 2 <= N -> f + 2 <= F -> VI None (parse_formula f n) (parse_formula F N) N0 PT.
Proof.
  intros. eapply v_post; [apply (proj1 (formula_v n)); eauto| |]; [intros b ts g1 [-> _]; reflexivity|intros b Hb; exact I].
Qed.

(** ** Tasks and actions *)
Lemma acc_task F s : 1 <= F -> printable (TIdent s) -> Acc [TIdent s; TKeyword KParameters; LP; RP] (parse_task F) PT.
Proof. intros. unfold parse_task. acc. accargs. Qed.
Lemma task_v f F : f + 2 <= F -> VI None (parse_task f) (parse_task F) N0 PT.
Proof.
  intros. eapply (g_ident _ [TKeyword KParameters; LP; RP]); [ph|intros ? ?; apply acc_task; [lia|assumption]|]. intros s. apply i_pos. intros p.
  eapply (g_kparams _ [TKeyword KParameters; LP; RP]); [ph|reflexivity|acc; accargs|].
  eapply (g_lp _ [LP; RP]); [ph|reflexivity|acc; accargs|].
  ib (@nil token); [apply parse_args_v; lia|intros; acc|]. intros a g1 [-> _]. fin.
Qed.

Lemma optf_v f F t : f + 2 <= F -> t <> TEOF ->
  VI (Some t) (bind get (fun _ => bind (parse_formula f f) (fun fm => ret (Some fm))))
              (bind get (fun _ => bind (parse_formula F F) (fun fm => ret (Some fm)))) N0 PT.
Proof.
  intros. apply i_get_some; auto. ib (@nil token); [apply parse_formula_v; lia|intros; acc|]. intros a g1 ->. fin.
Qed.
Lemma action_end_v f F x y fy (c : option formula -> action) g : phrase x [kw KEffect] Some_of -> phrase y [close_] fy -> f + 2 <= F -> g = None \/ g = Some (TKeyword KEffect) \/ g = Some RP ->
  VI g (lb <- peek;
        eff <- match lb with
               | TKeyword KEffect => _ <- get; fm <- parse_formula f f; ret (Some fm)
               | TPunct RParen => ret None
               | other => syn x other end;
        t <- get; match t with TPunct RParen => ret (c eff) | other => syn y other end)%parser
       (lb <- peek;
        eff <- match lb with
               | TKeyword KEffect => _ <- get; fm <- parse_formula F F; ret (Some fm)
               | TPunct RParen => ret None
               | other => syn x other end;
        t <- get; match t with TPunct RParen => ret (c eff) | other => syn y other end)%parser N0 PT.
Proof.
  intros Hx Hy Hf Hg.
  assert (forall eff, VI None
      (t <- get; match t with TPunct RParen => ret (c eff) | other => syn y other end)%parser
      (t <- get; match t with TPunct RParen => ret (c eff) | other => syn y other end)%parser N0 PT) as Hc.
  { intros eff. eapply (g_rp _ [RP]); [ph|reflexivity|acc|fin]. }
  assert (VI (Some (TKeyword KEffect))
      (eff <- (_ <- get; fm <- parse_formula f f; ret (Some fm));
       t <- get; match t with TPunct RParen => ret (c eff) | other => syn y other end)%parser
      (eff <- (_ <- get; fm <- parse_formula F F; ret (Some fm));
       t <- get; match t with TPunct RParen => ret (c eff) | other => syn y other end)%parser N0 PT) as He.
  { ib [RP]; [apply optf_v; [lia|discriminate]|intros; acc|]. intros a g2 ->. apply Hc. }
  assert (VI (Some RP)
      (eff <- ret None; t <- get; match t with TPunct RParen => ret (c eff) | other => syn y other end)%parser
      (eff <- ret None; t <- get; match t with TPunct RParen => ret (c eff) | other => syn y other end)%parser N0 PT) as Hr.
  { apply i_retb. apply i_get_some; [discriminate|]. fin. }
  destruct Hg as [->|[->| ->]].
  - apply (p_eff [RP]); [|acc|exact He|exact Hr]. tell Hx. exists [LP; X; RP; RP]. a1.
    apply (acc_bind [TKeyword KEffect; LP; X; RP] [RP] _ _ PT); [|pr|intros; acc]. a1.
    apply (acc_bind [LP; X; RP] [] _ _ Pf); [apply acc_formula; lia|pr|intros; acc].
  - apply i_peek_some. exact He.
  - apply i_peek_some. exact Hr.
Qed.
Lemma action_v f F : f + 2 <= F -> VI None (parse_action f) (parse_action F) N0 PT.
Proof.
  intros. ib [RP]; [apply task_v; auto|intros; acc|]. intros t0 g1 ->.
  apply (p_pre [RP]); [|acc| | |].
  - tell ph_preconditions. exists [LP; X; RP; RP]. a1.
    apply (acc_bind [TKeyword KPrecondition; LP; X; RP] [RP] _ _ PT); [|pr|intros; acc]. a1.
    apply (acc_bind [LP; X; RP] [] _ _ Pf); [apply acc_formula; lia|pr|intros; acc].
  - ib [RP]; [apply optf_v; [lia|discriminate]|intros; acc|]. intros a g2 ->. eapply action_end_v; [ph|ph|auto|auto].
  - apply i_retb. eapply action_end_v; [ph|ph|auto|auto].
  - apply i_retb. eapply action_end_v; [ph|ph|auto|auto].
Qed.

(** ** Task networks *)
Lemma acc_oids msg t1 N acc0 : 1 <= N -> Acc [RP] (ordering_ids msg t1 N acc0) PT.
Proof. intros. destruct N as [|N]; [lia|]. cbn [ordering_ids]. acc. Qed.
Lemma oids_v msg t1 : phrase msg [Identifier] Some_of -> forall n N acc0, n + 2 <= N -> VI None (ordering_ids msg t1 n acc0) (ordering_ids msg t1 N acc0) N0 PT.
Proof.
  intros Hm. induction n as [|n IH]; intros N acc0 Hn; [apply v_fuel|]. destruct N as [|N]; [lia|].
  apply (g_ident_rp [RP]); [|apply (acc_oids msg t1 (S N)); lia| |fin].
  { tell Hm. exists [RP]. a1. apply (acc_oids msg t1 N). lia. }
  intros s. apply IH. lia.
Qed.
Lemma acc_oconj F N acc0 : 1 <= N -> Acc [RP] (ordering_conj F N acc0) PT.
Proof. intros. destruct N as [|N]; [lia|]. cbn [ordering_conj]. acc. Qed.
Lemma acc_ordering F : 1 <= F -> Acc [TOp OLess; X; RP] (parse_ordering F) PT.
Proof. intros. unfold parse_ordering. acc. apply acc_oids. lia. Qed.
Lemma ordering_v f F : f + 2 <= F -> VI None (parse_ordering f) (parse_ordering F) N0 PT.
Proof.
  intros. eapply (g_less _ [TOp OLess; X; RP]); [ph|reflexivity|acc; apply acc_oids; lia|].
  eapply (g_ident _ [RP]); [ph|intros ? ?; acc; apply acc_oids; lia|]. intros s. apply oids_v; [ph|lia].
Qed.
Lemma oconj_v : forall n N f F acc0, n + 2 <= N -> f + 2 <= F -> VI None (ordering_conj f n acc0) (ordering_conj F N acc0) N0 PT.
Proof.
  induction n as [|n IH]; intros N f F acc0 Hn Hf; [apply v_fuel|]. destruct N as [|N]; [lia|].
  apply (g_lp_rp [RP]); [|apply (acc_oconj F (S N)); lia| |fin].
  { tell ph_open. exists [TOp OLess; X; RP; RP]. a1. apply (acc_bind [TOp OLess; X; RP] [RP] _ _ PT); [apply acc_ordering; lia|pr|].
    intros a _. apply (acc_oconj F N). lia. }
  ib [RP]; [apply ordering_v; lia|intros a _; apply (acc_oconj F N); lia|]. intros a g1 ->. apply IH; lia.
Qed.
Lemma orderings_v f F acc0 : f + 2 <= F -> VI None (parse_orderings f acc0) (parse_orderings F acc0) N0 PT.
Proof.
  intros. eapply (g_lp _ [LP; RP]); [ph|reflexivity|acc|]. apply (g_and_less_rp [RP]); [|acc| | |fin].
  - tell ph_orders; [exists [RP]; a1; apply acc_oconj; lia|exists [X; RP]; acc; apply acc_oids; lia].
  - apply oconj_v; lia.
  - eapply (g_ident _ [RP]); [ph|intros ? ?; acc; apply acc_oids; lia|]. intros s. apply oids_v; [ph|lia].
Qed.

Lemma acc_idterms i tk N acc0 : 1 <= N -> Acc [RP; RP] (id_subtask_terms i tk N acc0) PT.
Proof. intros. destruct N as [|N]; [lia|]. cbn [id_subtask_terms]. acc. Qed.
Lemma idterms_v i tk : forall n N acc0, n + 2 <= N -> VI None (id_subtask_terms i tk n acc0) (id_subtask_terms i tk N acc0) N0 PT.
Proof.
  induction n as [|n IH]; intros N acc0 Hn; [apply v_fuel|]. destruct N as [|N]; [lia|].
  apply (g_ident_rp [RP; RP]); [|apply (acc_idterms i tk (S N)); lia| |].
  - tell ph_subtask_terms; [exists [RP]; apply (acc_idterms i tk (S N)); lia|exists [RP; RP]; do 2 a1; apply (acc_idterms i tk N); lia].
  - intros s. apply i_pos. intros p. apply IH. lia.
  - eapply (g_rp _ [RP]); [ph|reflexivity|acc|fin].
Qed.
Lemma acc_plterms tk x N acc0 : 1 <= N -> Acc [RP] (plain_subtask_terms tk x N acc0) PT.
Proof. intros. destruct N as [|N]; [lia|]. cbn [plain_subtask_terms]. acc. Qed.
Lemma plterms_v tk x : forall n N acc0, n + 2 <= N -> VI None (plain_subtask_terms tk x n acc0) (plain_subtask_terms tk x N acc0) N0 PT.
Proof.
  induction n as [|n IH]; intros N acc0 Hn; [apply v_fuel|]. destruct N as [|N]; [lia|].
  apply (g_ident_rp [RP]); [|apply (acc_plterms tk x (S N)); lia| |fin].
  { tell ph_subtask_term; [exists [RP]; do 2 a1; apply (acc_plterms tk x N); lia|exists []; apply (acc_plterms tk x (S N)); lia]. }
  intros s. apply i_pos. intros p. apply IH. lia.
Qed.
Lemma acc_subtask F s : printable (TIdent s) -> Acc [TIdent s; RP] (parse_subtask F) PT.
Proof. intros. unfold parse_subtask. acc. Qed.
Lemma subtask_end_v f F id x y fx : phrase x [Identifier] fx -> phrase y [open_; Identifier; close_] All -> f + 2 <= F ->
  VI None (p <- pos; u <- get;
    match u with
    | TPunct LParen =>
      v <- get;
      match v with
      | TIdent tsk => q <- pos; id_subtask_terms (plain (id, p)) (plain (tsk, q)) f []
      | other => syn x other
      end
    | TIdent term => q <- pos; plain_subtask_terms (plain (id, p)) term f [plain (term, q)]
    | TPunct RParen => ret (mkSub None (plain (id, p)) [])
    | other => syn y other
    end)%parser
   (p <- pos; u <- get;
    match u with
    | TPunct LParen =>
      v <- get;
      match v with
      | TIdent tsk => q <- pos; id_subtask_terms (plain (id, p)) (plain (tsk, q)) F []
      | other => syn x other
      end
    | TIdent term => q <- pos; plain_subtask_terms (plain (id, p)) term F [plain (term, q)]
    | TPunct RParen => ret (mkSub None (plain (id, p)) [])
    | other => syn y other
    end)%parser N0 PT.
Proof.
  intros Hx Hy Hf. apply i_pos. intros p. apply (g_lp_ident_rp [RP]); [|acc| | |fin].
  - tell Hy; [exists [X; RP; RP]; acc; apply acc_idterms; lia|exists [RP]; acc; apply acc_plterms; lia|exists []; acc].
  - eapply (g_ident _ [RP; RP]); [ph|intros ? ?; acc; apply acc_idterms; lia|]. intros s. apply i_pos. intros q. apply idterms_v. lia.
  - intros s. apply i_pos. intros q. apply plterms_v. lia.
Qed.
Lemma subtask_v f F g : f + 2 <= F -> g = None \/ (exists s, g = Some (TIdent s)) -> VI g (parse_subtask f) (parse_subtask F) N0 PT.
Proof.
  intros Hf [->|(s & ->)].
  - eapply (g_ident _ [RP]); [ph|intros ? ?; apply acc_subtask; assumption|]. intros s. eapply subtask_end_v; [ph|ph|auto].
  - apply i_get_some; [discriminate|]. eapply subtask_end_v; [ph|ph|auto].
Qed.
Lemma acc_subloop F N acc0 : 1 <= N -> Acc [RP] (subtasks_loop F N acc0) PT.
Proof. intros. destruct N as [|N]; [lia|]. cbn [subtasks_loop]. acc. Qed.
Lemma subloop_v : forall n N f F acc0, n + 2 <= N -> f + 2 <= F -> VI None (subtasks_loop f n acc0) (subtasks_loop F N acc0) N0 PT.
Proof.
  induction n as [|n IH]; intros N f F acc0 Hn Hf; [apply v_fuel|]. destruct N as [|N]; [lia|].
  apply (g_lp_rp [RP]); [|apply (acc_subloop F (S N)); lia| |fin].
  { tell ph_declarations. exists [X; RP; RP]. a1. apply (acc_bind [X; RP] [RP] _ _ PT); [apply acc_subtask; exact x_printable|pr|].
    intros a _. apply (acc_subloop F N). lia. }
  ib [RP]; [apply subtask_v; auto|intros a _; apply (acc_subloop F N); lia|]. intros a g1 ->. apply IH; lia.
Qed.
Lemma acc_subtasks F : Acc [LP; RP] (parse_subtasks F) PT.
Proof. unfold parse_subtasks. acc. Qed.
Lemma subtasks_v f F : f + 2 <= F -> VI None (parse_subtasks f) (parse_subtasks F) N0 PT.
Proof.
  intros. eapply (g_lp _ [LP; RP]); [ph|reflexivity|acc|]. apply (p_and_ident_rp [RP]); [|acc| | |].
  - tell ph_declarations_start; [exists [RP]; do 2 a1; apply acc_subloop; lia|].
    exists [RP]. a1. apply (acc_bind [_; RP] [] _ _ PT); [apply acc_subtask; assumption|pr|intros; acc].
  - apply i_get_some; [discriminate|]. apply subloop_v; lia.
  - intros s. ib (@nil token); [apply subtask_v; eauto|intros; acc|]. intros a g1 ->. fin.
  - apply i_get_some; [discriminate|]. fin.
Qed.
Lemma acc_constraint : Acc [TOp OEqual; X; X; RP] parse_constraint PT.
Proof. unfold parse_constraint. acc. Qed.
Lemma two_v (x y : string) (z : string -> string) (m M : string -> string -> P constr) toks fx fy fz :
  phrase x [Identifier] fx -> phrase y [close_] fy -> (forall s, phrase (z s) [Identifier] fz) -> hd TEOF toks = RP ->
  (forall a b, VI None (m a b) (M a b) N0 PT) -> (forall a b, Acc toks (bind get (fun t => match t with TPunct RParen => M a b | other => syn y other end)) PT) ->
  VI None (c <- get; match c with
    | TIdent t1 => d <- get; match d with
       | TIdent t2 => e <- get; match e with TPunct RParen => m t1 t2 | other => syn y other end
       | other => syn (z t1) other end
    | other => syn x other end)%parser
   (c <- get; match c with
    | TIdent t1 => d <- get; match d with
       | TIdent t2 => e <- get; match e with TPunct RParen => M t1 t2 | other => syn y other end
       | other => syn (z t1) other end
    | other => syn x other end)%parser N0 PT.
Proof.
  intros Hx Hy Hz Ht Hm Ha. eapply (g_ident _ (X :: toks)); [ph|intros ? ?|].
  { apply acc_get; [assumption|]. apply acc_get; [exact x_printable|]. apply Ha. }
  intros s. eapply (g_ident _ toks); [apply Hz|intros ? ?; apply acc_get; [assumption|apply Ha]|]. intros s1.
  eapply (g_rp _ toks); [ph|exact Ht|apply Ha|]. apply Hm.
Qed.
Lemma constraint_v g : g = None \/ g = Some (TOp ONot) \/ g = Some (TOp OEqual) -> VI g parse_constraint parse_constraint N0 PT.
Proof.
  intros Hg. unfold parse_constraint.
  assert (forall b, b = true \/ b = false) as _ by (intros []; auto).
  destruct Hg as [->|[->| ->]]; [apply (g_not_equal [TOp OEqual; X; X; RP]);
    [tell ph_constraint_start; [exists [LP; TOp OEqual; X; X; RP; RP]; acc|exists [X; X; RP]; apply acc_constraint]|apply acc_constraint| |]|
    apply i_get_some; [discriminate|]|apply i_get_some; [discriminate|]].
  1,3: eapply (g_lp _ [LP; TOp OEqual; X; X; RP; RP]); [ph|reflexivity|acc|];
    eapply (g_equal _ [TOp OEqual; X; X; RP; RP]); [ph|reflexivity|acc|];
    eapply (two_v _ _ (fun t1 => String.append "right hand side of " (String.append t1 "!=..."))) with (toks := [RP; RP]);
    [ph|ph|intros; ph|reflexivity|intros a b; eapply (g_rp _ [RP]); [ph|reflexivity|acc|fin]|intros; acc].
  1,2: eapply (two_v _ _ (fun t1 => String.append "right hand side of " (String.append t1 "=..."))) with (toks := [RP]); [ph|ph|intros; ph|reflexivity|intros; fin|intros; acc].
Qed.
Lemma acc_consloop N acc0 : 1 <= N -> Acc [RP] (constraints_loop N acc0) PT.
Proof. intros. destruct N as [|N]; [lia|]. cbn [constraints_loop]. acc. Qed.
Lemma consloop_v : forall n N acc0, n + 2 <= N -> VI None (constraints_loop n acc0) (constraints_loop N acc0) N0 PT.
Proof.
  induction n as [|n IH]; intros N acc0 Hn; [apply v_fuel|]. destruct N as [|N]; [lia|].
  apply (g_lp_rp [RP]); [|apply (acc_consloop (S N)); lia| |fin].
  { tell ph_constraint. exists [TOp OEqual; X; X; RP; RP]. a1.
    apply (acc_bind [TOp OEqual; X; X; RP] [RP] _ _ PT); [apply acc_constraint|pr|]. intros a _. apply (acc_consloop N). lia. }
  ib [RP]; [apply constraint_v; auto|intros a _; apply (acc_consloop N); lia|]. intros a g1 ->. apply IH; lia.
Qed.
Lemma constraints_v f F : f + 2 <= F -> VI None (parse_constraints f) (parse_constraints F) N0 PT.
Proof.
  intros. eapply (g_lp _ [LP; RP]); [ph|reflexivity|acc|]. apply (p_cons [RP]); [|acc| | | |].
  - tell ph_constraints; [exists [RP]; do 2 a1; apply acc_consloop; lia|exists [LP; TOp OEqual; X; X; RP; RP]; a1|exists [X; X; RP]; a1].
    + apply (acc_bind [TOp ONot; LP; TOp OEqual; X; X; RP; RP] [] _ _ PT); [unfold parse_constraint; acc|pr|intros; acc].
    + apply (acc_bind [TOp OEqual; X; X; RP] [] _ _ PT); [apply acc_constraint|pr|intros; acc].
  - apply i_get_some; [discriminate|]. fin.
  - apply i_get_some; [discriminate|]. apply consloop_v; lia.
  - ib (@nil token); [apply constraint_v; auto|intros; acc|]. intros a g1 ->. fin.
  - ib (@nil token); [apply constraint_v; auto|intros; acc|]. intros a g1 ->. fin.
Qed.
Lemma acc_htnloop F N s o r c : 1 <= N -> Acc [RP] (htn_loop F N s o r c) PT.
Proof. intros. destruct N as [|N]; [lia|]. cbn [htn_loop]. acc. Qed.
Lemma htnloop_v : forall n N f F s o r c, n + 2 <= N -> f + 2 <= F -> VI None (htn_loop f n s o r c) (htn_loop F N s o r c) N0 PT.
Proof.
  induction n as [|n IH]; intros N f F s o r c Hn Hf; [apply v_fuel|]. destruct N as [|N]; [lia|].
  apply (g_kord_kcons_rp [RP]); [|apply (acc_htnloop F (S N)); lia| | |fin].
  - tell ph_network_order. exists [LP; RP; RP]. do 2 a1. apply (acc_bind [LP; RP] [RP] _ _ PT); [unfold parse_orderings; acc|pr|].
    intros a _. apply (acc_htnloop F N). lia.
  - apply i_pos. intros p. ib [RP]; [apply orderings_v; lia|intros a _; apply (acc_htnloop F N); lia|].
    intros a g1 ->. apply IH; lia.
  - ib [RP]; [apply constraints_v; lia|intros a _; apply (acc_htnloop F N); lia|].
    intros a g1 ->. apply IH; lia.
Qed.
(** The network may leave the closing parenthesis unread. *)
Definition Nr {A} (_ : A) (g : option token) : Prop := g = None \/ g = Some RP.
Lemma acc_htn F : 1 <= F -> Acc [TKeyword KSubtasks; LP; RP; RP] (parse_htn F) PT.
Proof.
  intros. unfold parse_htn. acc. apply (acc_bind [LP; RP] [RP] _ _ PT); [apply acc_subtasks|pr|]. intros. apply acc_htnloop. lia.
Qed.
(** The shape of [parse_htn]. *)
Lemma p_htn {A} tk x (r : A) (b0 b1 c0 c1 : P A) (Pc : A -> Prop) g :
  let B b0 b1 := bind peek (fun t => match t with
     | TPunct RParen => ret r
     | _ => bind get (fun t => match t with TKeyword KSubtasks => b0 | TKeyword KOrderedSubtasks => b1 | other => syn x other end) end) in
  phrase x [kw KSubtasks; kw KOrderedSubtasks] Some_of ->
  Acc tk (B c0 c1) Pc -> (exists t0 t1, Acc t0 c0 Pc /\ Acc t1 c1 Pc) ->
  VI None b0 c0 Nr Pc -> VI None b1 c1 Nr Pc ->
  g = None \/ g = Some (TKeyword KSubtasks) \/ g = Some (TKeyword KOrderedSubtasks) ->
  VI g (B b0 b1) (B c0 c1) Nr Pc.
Proof.
  intros B Hp Ha (t0 & t1 & A0 & A1) H0 H1 Hg. unfold B in *. destruct Hg as [->|[->| ->]].
  - apply (i_peek (Some x) tk); auto.
    { tell Hp; [exists t0; do 2 a1; exact A0|exists t1; do 2 a1; exact A1]. }
    intros t.
    destruct t as [k|s|w|o|p|q|]; [destruct k|..|idtac]; try (destruct o); try (destruct p); cbn beta iota delta [peeked];
      try (right; right; apply immn_get; apply imm_syn); left.
    + apply i_get_some; [discriminate|auto].
    + apply i_get_some; [discriminate|auto].
    + apply i_ret. right. reflexivity.
  - apply i_peek_some. cbn beta iota delta [peeked]. apply i_get_some; [discriminate|auto].
  - apply i_peek_some. cbn beta iota delta [peeked]. apply i_get_some; [discriminate|auto].
Qed.
Lemma htn_v f F g : f + 2 <= F -> g = None \/ g = Some (TKeyword KSubtasks) \/ g = Some (TKeyword KOrderedSubtasks) ->
  VI g (parse_htn f) (parse_htn F) Nr PT.
Proof.
  intros Hf Hg. apply (p_htn [TKeyword KSubtasks; LP; RP; RP]); auto; [ph|apply acc_htn; lia| | |].
  - exists [LP; RP; RP], [LP; RP; RP].
    split; (apply (acc_bind [LP; RP] [RP] _ _ PT); [apply acc_subtasks|pr|intros]); [apply acc_htnloop; lia|acc].
  - ib [RP]; [apply subtasks_v; lia|intros a _; apply acc_htnloop; lia|]. intros a g1 ->.
    eapply i_post; [apply htnloop_v; lia| |auto]. intros x g2 ->. left. reflexivity.
  - ib [RP]; [apply subtasks_v; lia|intros a _; acc|]. intros a g1 ->.
    apply (g_kcons_rp [RP]); [tell ph_network_close; exists []; acc|acc| |].
    + ib (@nil token); [apply constraints_v; lia|intros; acc|]. intros b g1 ->. apply i_ret. left. reflexivity.
    + apply i_ret. left. reflexivity.
Qed.
Lemma acc_htn_then {A} F (K : htn -> P A) : 1 <= F -> (forall h, Acc [] (K h) PT) ->
  Acc [TKeyword KSubtasks; LP; RP; RP] (bind (parse_htn F) K) PT.
Proof. intros Hf Hk. apply (acc_bind [TKeyword KSubtasks; LP; RP; RP] [] _ _ PT); [apply acc_htn; auto|pr|auto]. Qed.
Lemma htn_then_v {A} f F g (c : htn -> A) : f + 2 <= F -> g = None \/ g = Some (TKeyword KSubtasks) \/ g = Some (TKeyword KOrderedSubtasks) ->
  VI g (bind (parse_htn f) (fun h => ret (c h))) (bind (parse_htn F) (fun h => ret (c h))) Nr PT.
Proof.
  intros Hf Hg. ib (@nil token); [apply htn_v; eauto|intros; acc|]. intros b g1 Hb. apply i_ret. exact Hb.
Qed.

Lemma acc_initial F : 1 <= F -> Acc [TKeyword KSubtasks; LP; RP; RP] (parse_initial_tn F) PT.
Proof. intros. unfold parse_initial_tn. apply acc_peek. cbn beta iota delta [peeked]. apply acc_htn_then; [lia|]. intros; acc. Qed.
Lemma acc_htn_any {A} F k (K : htn -> P A) : 1 <= F -> k = KSubtasks \/ k = KOrderedSubtasks -> (forall h, Acc [] (K h) PT) ->
  Acc [TKeyword k; LP; RP; RP] (bind (parse_htn F) K) PT.
Proof.
  intros Hf Hk HK. apply (acc_bind [TKeyword k; LP; RP; RP] [] _ _ PT); [|pr|auto].
  destruct Hk as [-> | ->]; [apply acc_htn; auto|]. unfold parse_htn. do 2 a1.
  apply (acc_bind [LP; RP] [RP] _ _ PT); [apply acc_subtasks|pr|intros; acc].
Qed.
Lemma initial_v f F : f + 2 <= F -> VI None (parse_initial_tn f) (parse_initial_tn F) Nr PT.
Proof.
  intros. apply (p_initial [TKeyword KSubtasks; LP; RP; RP]).
  - tell ph_initial.
    + exists [LP; RP; TKeyword KSubtasks; LP; RP; RP]. do 3 a1. accargs_then [TKeyword KSubtasks; LP; RP; RP]. apply acc_htn_then; [lia|]. intros; acc.
    + exists [LP; RP; RP]. a1. apply acc_htn_any; auto; [lia|]. intros; acc.
    + exists [LP; RP; RP]. a1. apply acc_htn_any; auto; [lia|]. intros; acc.
  - apply acc_peek. cbn beta iota delta [peeked]. apply acc_htn_then; [lia|]. intros; acc.
  - apply i_get_some; [discriminate|]. eapply (g_lp _ [LP; RP; TKeyword KSubtasks; LP; RP; RP]); [ph|reflexivity| |].
    { acc. accargs_then [TKeyword KSubtasks; LP; RP; RP]. apply acc_htn_then; [lia|]. intros; acc. }
    ib [TKeyword KSubtasks; LP; RP; RP]; [apply parse_args_v; lia| |].
    { intros. apply acc_htn_then; [lia|]. intros; acc. }
    intros a g1 [-> _]. apply htn_then_v; auto.
  - apply htn_then_v; auto.
  - apply htn_then_v; auto.
  - apply i_ret. right. reflexivity.
Qed.

Definition tl4 : list token := [TKeyword KSubtasks; LP; RP; RP].
Lemma method_end_v f F x mk : phrase x [kw KPrecondition; kw KSubtasks; kw KOrderedSubtasks] All -> f + 2 <= F ->
  let B n := (la <- peek;
     match la with
     | TKeyword KPrecondition => _ <- get; pre <- parse_formula n n; tn <- parse_htn n; ret (mk (Some pre) tn)
     | TKeyword KSubtasks | TKeyword KOrderedSubtasks => tn <- parse_htn n; ret (mk None tn)
     | other => syn x other
     end)%parser in
  Acc tl4 (B F) (@PT method) /\ VI None (B f) (B F) Nr PT.
Proof.
  intros Hx Hf B. assert (Acc tl4 (B F) PT) as Ha.
  { apply acc_peek. cbn beta iota delta [peeked]. apply acc_htn_then; [lia|]. intros; acc. }
  split; auto. apply (p_method tl4); [|exact Ha| | |].
  - tell Hx.
    + exists (LP :: X :: RP :: tl4). do 2 a1. accform tl4. apply acc_htn_then; [lia|]. intros; acc.
    + exists [LP; RP; RP]. a1. apply acc_htn_any; auto; [lia|]. intros; acc.
    + exists [LP; RP; RP]. a1. apply acc_htn_any; auto; [lia|]. intros; acc.
  - apply i_get_some; [discriminate|]. ib tl4; [apply parse_formula_v; lia| |].
    { intros. apply acc_htn_then; [lia|]. intros; acc. }
    intros pre g1 ->. apply htn_then_v; auto.
  - apply htn_then_v; auto.
  - apply htn_then_v; auto.
Qed.
Definition method_toks : list token := X :: TKeyword KParameters :: LP :: RP :: TKeyword KTask :: LP :: X :: RP :: tl4.
Lemma acc_method F : 1 <= F -> Acc method_toks (parse_method F) PT.
Proof.
  intros Hf. unfold parse_method, method_toks. do 4 a1. accargs_then (TKeyword KTask :: LP :: X :: RP :: tl4). do 4 a1. accargs_then tl4.
  apply acc_peek. cbn beta iota delta [peeked]. apply acc_htn_then; [lia|]. intros; acc.
Qed.
Lemma method_v f F : f + 2 <= F -> VI None (parse_method f) (parse_method F) Nr PT.
Proof.
  intros Hf. unfold parse_method.
  assert (forall x mk, Acc tl4 (la <- peek;
     match la with
     | TKeyword KPrecondition => _ <- get; pre <- parse_formula F F; tn <- parse_htn F; ret (mk (Some pre) tn)
     | TKeyword KSubtasks | TKeyword KOrderedSubtasks => tn <- parse_htn F; ret (mk None tn)
     | other => syn x other
     end)%parser (@PT method)) as Ha.
  { intros. apply acc_peek. cbn beta iota delta [peeked]. apply acc_htn_then; [lia|]. intros; acc. }
  eapply (g_ident _ (TKeyword KParameters :: LP :: RP :: TKeyword KTask :: LP :: X :: RP :: tl4)); [ph|intros ? ?|].
  { do 4 a1. accargs_then (TKeyword KTask :: LP :: X :: RP :: tl4). do 4 a1. accargs_then tl4. apply Ha. }
  intros s. apply i_pos. intros p.
  eapply (g_kparams _ (TKeyword KParameters :: LP :: RP :: TKeyword KTask :: LP :: X :: RP :: tl4)); [ph|reflexivity| |].
  { do 2 a1. accargs_then (TKeyword KTask :: LP :: X :: RP :: tl4). do 4 a1. accargs_then tl4. apply Ha. }
  eapply (g_lp _ (LP :: RP :: TKeyword KTask :: LP :: X :: RP :: tl4)); [ph|reflexivity| |].
  { do 1 a1. accargs_then (TKeyword KTask :: LP :: X :: RP :: tl4). do 4 a1. accargs_then tl4. apply Ha. }
  ib (TKeyword KTask :: LP :: X :: RP :: tl4); [apply parse_args_v; lia| |].
  { intros. do 4 a1. accargs_then tl4. apply Ha. }
  intros params g1 [-> _].
  eapply (g_ktask _ (TKeyword KTask :: LP :: X :: RP :: tl4)); [ph|reflexivity| |].
  { do 4 a1. accargs_then tl4. apply Ha. }
  eapply (g_lp _ (LP :: X :: RP :: tl4)); [ph|reflexivity| |].
  { do 3 a1. accargs_then tl4. apply Ha. }
  eapply (g_ident _ (RP :: tl4)); [ph|intros ? ?|].
  { do 2 a1. accargs_then tl4. apply Ha. }
  intros tn. apply i_pos. intros q.
  ib tl4; [apply parse_args_v; lia|intros; apply Ha|].
  intros terms g1 [-> _]. apply (method_end_v f F); [ph|auto].
Qed.

(** ** Documents *)
Lemma acc_domain F N d : 1 <= N -> Acc [RP] (parse_domain F N d) PT.
Proof. intros. destruct N as [|N]; [lia|]. cbn [parse_domain]. acc. Qed.
Lemma domain_v : forall n N f F d g, n + 2 <= N -> f + 2 <= F -> g = None \/ g = Some RP ->
  VI g (parse_domain f n d) (parse_domain F N d) N0 PT.
Proof.
  induction n as [|n IH]; intros N f F d g Hn Hf Hg; [apply v_fuel|]. destruct N as [|N]; [lia|].
  assert (forall d, Acc [RP] (parse_domain F N d) PT) as Ha by (intros; apply acc_domain; lia).
  assert (forall d g, g = None \/ g = Some RP -> VI g (parse_domain f n d) (parse_domain F N d) N0 PT) as IH' by (intros; apply IH; auto; lia).
  destruct Hg as [->| ->].
  2:{ cbn [parse_domain]. apply i_get_some; [discriminate|]. fin. }
  assert (Ha0 := acc_domain F (S N) d ltac:(lia)). cbn [parse_domain] in *.
  apply (g_lp_rp [RP]); [|exact Ha0| |fin].
  { tell ph_parts; [exists []; exact Ha0|]. exists [TKeyword KTypes; RP; RP]. do 2 a1. accargs_then [RP]. apply Ha. }
  clear Ha0. apply (g_domain_kw [TKeyword KTypes; RP; RP]).
  - tell ph_domain_keyword.
    + exists [RP; RP]. a1. apply (acc_bind [RP] [RP] _ _ PT); [apply acc_predicates; lia|pr|intros; apply Ha].
    + exists [RP; RP]. a1. apply (acc_bind [RP] [RP] _ _ PT); [apply acc_functions; lia|pr|intros; apply Ha].
    + exists [X; TKeyword KParameters; LP; RP; RP; RP]. a1. apply (acc_bind [X; TKeyword KParameters; LP; RP] [RP; RP] _ _ PT);
        [apply acc_task; [lia|exact x_printable]|pr|intros; a1; apply Ha].
    + exists (method_toks ++ [RP]). a1. apply (acc_bind method_toks [RP] _ _ PT); [apply acc_method; lia|pr|intros; apply Ha].
    + exists [X; TKeyword KParameters; LP; RP; RP; RP]. a1. apply (acc_bind [X; TKeyword KParameters; LP; RP; RP] [RP] _ _ PT); [|pr|intros; apply Ha].
      unfold parse_action. apply (acc_bind [X; TKeyword KParameters; LP; RP] [RP] _ _ PT); [apply acc_task; [lia|exact x_printable]|pr|intros; acc].
    + exists [RP; RP]. a1. apply (acc_bind [RP] [RP] _ _ PT); [apply acc_requirements; lia|pr|intros; apply Ha].
    + exists [RP; RP]. a1. accargs_then [RP]. apply Ha.
    + exists [RP; RP]. a1. accargs_then [RP]. apply Ha.
  - a1. accargs_then [RP]. apply Ha.
  - ib [RP]; [apply predicates_v; lia|intros; apply Ha|]. intros a g1 ->. apply IH'; auto.
  - ib [RP]; [apply functions_v; lia|intros; apply Ha|]. intros a g1 ->. apply IH'; auto.
  - ib [RP; RP]; [apply task_v; lia|intros; a1; apply Ha|]. intros a g1 ->.
    eapply (g_rp _ [RP; RP]); [ph|reflexivity|a1; apply Ha|]. apply IH'; auto.
  - ib [RP]; [apply method_v; lia|intros; apply Ha|]. intros a g1 Hg. apply IH'; auto.
  - ib [RP]; [apply action_v; lia|intros; apply Ha|]. intros a g1 ->. apply IH'; auto.
  - ib [RP]; [apply requirements_v; lia|intros; apply Ha|]. intros a g1 ->. apply IH'; auto.
  - ib [RP]; [apply parse_args_v; lia|intros; apply Ha|]. intros a g1 [-> _]. apply IH'; auto.
  - ib [RP]; [apply parse_args_v; lia|intros; apply Ha|]. intros a g1 [-> _]. apply IH'; auto.
Qed.

Definition Any {A} (_ : A) (_ : option token) : Prop := True.
Lemma g_problem {A} tk (b0 c0 : P A) (r : A) (Pc : A -> Prop) :
  Acc tk (bind get (fun t => match t with TPunct LParen => c0 | TEOF | TPunct RParen => ret r | _ => ppanic PanicProblemToken end)) Pc ->
  VI None b0 c0 Any Pc ->
  VI None (bind get (fun t => match t with TPunct LParen => b0 | TEOF | TPunct RParen => ret r | _ => ppanic PanicProblemToken end))
          (bind get (fun t => match t with TPunct LParen => c0 | TEOF | TPunct RParen => ret r | _ => ppanic PanicProblemToken end)) Any Pc.
Proof.
  intros Ha Hb. apply (i_get None tk); auto; [exact I|]. toks t; try (right; left; apply imm_panic).
  - here. auto.
  - here. apply i_ret. exact I.
  - right. right. left. split; auto. exists r. split; [reflexivity|]. split; [reflexivity|exact I].
Qed.
Lemma acc_problem F N d : 1 <= N -> Acc [RP] (parse_problem F N d) PT.
Proof. intros. destruct N as [|N]; [lia|]. cbn [parse_problem]. acc. Qed.
Lemma problem_v : forall n N f F d g, n + 2 <= N -> f + 2 <= F -> g = None \/ g = Some RP ->
  VI g (parse_problem f n d) (parse_problem F N d) Any PT.
Proof.
  induction n as [|n IH]; intros N f F d g Hn Hf Hg; [apply v_fuel|]. destruct N as [|N]; [lia|].
  assert (forall d, Acc [RP] (parse_problem F N d) PT) as Ha by (intros; apply acc_problem; lia).
  assert (forall d g, g = None \/ g = Some RP -> VI g (parse_problem f n d) (parse_problem F N d) Any PT) as IH' by (intros; apply IH; auto; lia).
  destruct Hg as [->| ->].
  2:{ cbn [parse_problem]. apply i_get_some; [discriminate|]. apply i_ret. exact I. }
  assert (Ha0 := acc_problem F (S N) d ltac:(lia)). cbn [parse_problem] in *.
  apply (g_problem [RP]); [exact Ha0|]. clear Ha0.
  apply (g_problem_kw [TKeyword KGoal; LP; X; RP; RP]).
  - tell ph_problem_keyword.
    + exists [RP; RP]. a1. apply (acc_bind [RP] [RP] _ _ PT); [apply acc_requirements; lia|pr|intros; apply Ha].
    + exists [RP; RP]. a1. apply (acc_bind [RP] [RP] _ _ W); [apply acc_parse_args; lia|pr|]. intros a Hw. rewrite rebuild_some by exact Hw. apply Ha.
    + exists [TKeyword KSubtasks; LP; RP; RP; RP]. a1. apply (acc_bind [TKeyword KSubtasks; LP; RP; RP] [RP] _ _ PT); [apply acc_initial; lia|pr|intros; apply Ha].
    + exists [LP; X; RP; RP]. a1. accform [RP]. apply Ha.
    + exists [RP; RP]. a1. apply (acc_bind [RP] [RP] _ _ PT); [apply acc_predicates; lia|pr|intros; apply Ha].
  - a1. accform [RP]. apply Ha.
  - ib [RP]; [apply requirements_v; lia|intros; apply Ha|]. intros a g1 ->. apply IH'; auto.
  - ib [RP]; [apply parse_args_v; lia| |].
    + intros a Hw. rewrite rebuild_some by exact Hw. apply Ha.
    + intros a g1 [-> Hw]. rewrite rebuild_some by exact Hw. apply IH'; auto.
  - ib [RP]; [apply initial_v; lia|intros; apply Ha|]. intros a g1 Hg. apply IH'; auto.
  - ib [RP]; [apply parse_formula_v; lia|intros; apply Ha|]. intros a g1 ->. apply IH'; auto.
  - ib [RP]; [apply predicates_v; lia|intros; apply Ha|]. intros a g1 ->. apply IH'; auto.
Qed.

Lemma domain_header_v : VI None parse_domain_header parse_domain_header N0 PT.
Proof. unfold parse_domain_header. eapply (g_ident _ [RP]); [ph|intros ? ?; acc|]. intros s. eapply (g_rp _ [RP]); [ph|reflexivity|acc|]. fin. Qed.
Lemma problem_header_v : VI None parse_problem_header parse_problem_header N0 PT.
Proof.
  unfold parse_problem_header. eapply (g_ident _ [RP; LP; TKeyword KDomain; X; RP]); [ph|intros ? ?; acc|]. intros s.
  eapply (g_rp _ [RP; LP; TKeyword KDomain; X; RP]); [ph|reflexivity|acc|].
  eapply (g_lp _ [LP; TKeyword KDomain; X; RP]); [ph|reflexivity|acc|].
  eapply (g_kdomain _ [TKeyword KDomain; X; RP]); [ph|reflexivity|acc|].
  eapply (g_ident _ [RP]); [ph|intros ? ?; acc|]. intros s1. eapply (g_rp _ [RP]); [ph|reflexivity|acc|]. fin.
Qed.
Definition dom_head : list token := [TKeyword KDefine; LP; TKeyword KDomain; X; RP].
Lemma acc_doctype : Acc dom_head parse_document_type (fun d => d = DefDomain "x").
Proof. unfold parse_document_type, parse_domain_header. acc. Qed.
Lemma doctype_v : VI None parse_document_type parse_document_type N0 PT.
Proof.
  assert (Ha := acc_doctype). unfold parse_document_type in *. eapply (g_kdefine _ dom_head); [ph|reflexivity|eapply acc_post; [exact Ha|intros; exact I]|].
  eapply (g_lp _ [LP; TKeyword KDomain; X; RP]); [ph|reflexivity|unfold parse_domain_header; acc|].
  apply (g_kdoc [TKeyword KDomain; X; RP]);
    [tell ph_kind; [exists [X; RP]; unfold parse_domain_header; acc|exists [X; RP; LP; TKeyword KDomain; X; RP]; unfold parse_problem_header; acc]
    |unfold parse_domain_header; acc| |].
  - apply domain_header_v.
  - apply problem_header_v.
Qed.
Lemma doc_v f F : f + 2 <= F -> VI None (parse_doc f) (parse_doc F) Any PT.
Proof.
  intros.
  assert (forall dt, Acc [RP] (match dt with
    | DefDomain name => d <- parse_domain F F (new_domain name); ret (ADomain d)
    | DefProblem _ _ => p <- parse_problem F F new_problem; ret (AProblem p) end)%parser PT) as Ha.
  { intros [nm|a b]; apply (acc_bind [RP] [] _ _ PT); try pr; try (intros; acc); [apply acc_domain|apply acc_problem]; lia. }
  eapply (g_lp _ (LP :: dom_head ++ [RP])); [ph|reflexivity| |].
  - a1. eapply (acc_bind dom_head [RP]); [apply acc_doctype|pr|]. intros a _. apply Ha.
  - ib [RP]; [apply doctype_v|intros; apply Ha|].
    intros a g1 ->. destruct a as [nm|a b].
    + ib (@nil token); [apply domain_v; auto|intros; acc|]. intros d g1 _. apply i_ret. exact I.
    + ib (@nil token); [apply problem_v; auto|intros; acc|]. intros d g1 _. apply i_ret. exact I.
Qed.
End Prefix2.
