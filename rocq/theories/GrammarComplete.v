(** Completeness of the parser: every sentence of the grammar is accepted,
    with the tree it denotes. *)
From Coq Require Import String Ascii NArith ZArith Bool List Lia PeanoNat.
From Verif Require Import Base Token Lexer Errors Ast Parser
  StrFacts SpecLex LexProofs LexProofs2 LexProofs3 SpecGrammar GrammarSound.
Import ListNotations.
Open Scope list_scope.
Open Scope nat_scope.

Section Complete.
Context `{Unicode}.

(** The tokens read from [st], up to a state that continues like [st']. *)
Definition ReadsE (st : lstate) (ts : list tok) (st' : lstate) : Prop :=
  exists s, Reads st ts s /\ same_next s st'.

(** [m] succeeds with [a] and continues like [st']. *)
Definition goes {A} (m : P A) (st : lstate) (a : A) (st' : lstate) : Prop :=
  exists s, m st = POk a s /\ same_next s st'.

Lemma same_refl st : same_next st st.
Proof. intro; reflexivity. Qed.
Lemma same_trans a b c : same_next a b -> same_next b c -> same_next a c.
Proof. intros E1 E2 p. rewrite (E1 p). apply E2. Qed.
Lemma same_sym a b : same_next a b -> same_next b a.
Proof. intros E1 p. symmetry. apply E1. Qed.

Lemma readsE_same st s ts st' : ReadsE s ts st' -> same_next st s -> ReadsE st ts st'.
Proof.
  intros (x & Hr & Hx) E. inversion Hr; subst.
  - exists st. split; [constructor|]. eapply same_trans; eauto.
  - exists x. split; auto. econstructor; eauto. unfold get_token in *. rewrite E. auto.
Qed.

Lemma readsE_nil st st' : ReadsE st [] st' -> same_next st st'.
Proof. intros (x & Hr & Hx). inversion Hr; subst. auto. Qed.

Lemma readsE_cons st t l ts st' :
  ReadsE st ((t, l) :: ts) st' ->
  exists s1, get_token st = (LTok t, s1) /\ line s1 = l /\ ReadsE s1 ts st'.
Proof.
  intros (x & Hr & Hx). inversion Hr; subst. eexists. repeat split; eauto. exists x. auto.
Qed.

Lemma readsE_app st ts us st' :
  ReadsE st (ts ++ us) st' -> exists s1, ReadsE st ts s1 /\ ReadsE s1 us st'.
Proof.
  revert st. induction ts as [|[t l] ts IH]; simpl; intros st Hr.
  - exists st. split; auto. exists st. split; [constructor|apply same_refl].
  - destruct (readsE_cons _ _ _ _ _ Hr) as (s1 & E & <- & Hr').
    destruct (IH _ Hr') as (s2 & (x & H1 & H2) & H3).
    exists s2. split; auto. exists x. split; auto. econstructor; eauto.
Qed.

Lemma g_get {B} (k : token -> P B) t l ts st a st' :
  ReadsE st ((t, l) :: ts) st' ->
  (forall s1, line s1 = l -> ReadsE s1 ts st' -> goes (k t) s1 a st') ->
  goes (bind get k) st a st'.
Proof.
  intros Hr Hk. destruct (readsE_cons _ _ _ _ _ Hr) as (s1 & E & El & Hr').
  unfold goes, bind, get. rewrite E. simpl. apply Hk; auto.
Qed.

Lemma lookahead_of st t s1 : get_token st = (LTok t, s1) ->
  exists s2, lookahead st = (LTok (peeked t), s2) /\ same_next s2 st.
Proof.
  intros E. assert (Ep := peek_is_next st). rewrite E in Ep. simpl in Ep.
  destruct (lookahead st) as [o s2] eqn:E2. simpl in Ep. subst o. exists s2. split; auto.
  exact (peek_then _ _ _ E2 ltac:(discriminate)).
Qed.

Lemma g_peek {B} (k : token -> P B) t l ts st a st' :
  ReadsE st ((t, l) :: ts) st' ->
  (forall s1, ReadsE s1 ((t, l) :: ts) st' -> goes (k (peeked t)) s1 a st') ->
  goes (bind peek k) st a st'.
Proof.
  intros Hr Hk. destruct (readsE_cons _ _ _ _ _ Hr) as (s1 & E & El & Hr').
  destruct (lookahead_of _ _ _ E) as (s2 & E2 & Hs).
  unfold goes, bind, peek. rewrite E2. simpl. apply Hk. eapply readsE_same; eauto.
Qed.

Lemma g_pos {B} (k : N -> P B) st a st' : goes (k (line st)) st a st' -> goes (bind pos k) st a st'.
Proof. auto. Qed.
Lemma g_ret {A} (a : A) st st' : ReadsE st [] st' -> goes (ret a) st a st'.
Proof. intros Hr. exists st. split; auto. apply readsE_nil; auto. Qed.

Lemma g_bind {A B} (m : P A) (k : A -> P B) st b s1 a st' ts :
  goes m st b s1 -> ReadsE s1 ts st' ->
  (forall s, ReadsE s ts st' -> goes (k b) s a st') -> goes (bind m k) st a st'.
Proof.
  intros (s & E & Es) Hr Hk. unfold goes, bind. rewrite E. apply Hk. eapply readsE_same; eauto.
Qed.

(** [m] accepts [ts] with result [a]. *)
Definition cpl {A} (m : P A) (ts : list tok) (a : A) : Prop :=
  forall st st', ReadsE st ts st' -> goes m st a st'.

Lemma g_seq {A B} (m : P A) (k : A -> P B) us vs b a st st' :
  cpl m us b -> ReadsE st (us ++ vs) st' ->
  (forall s, ReadsE s vs st' -> goes (k b) s a st') -> goes (bind m k) st a st'.
Proof.
  intros Hm Hr Hk. apply readsE_app in Hr as (s1 & H1 & H2). eapply g_bind; eauto.
Qed.

Lemma g_seq_last {A B} (m : P A) (k : A -> P B) us b a st st' :
  cpl m us b -> ReadsE st us st' ->
  (forall s, ReadsE s [] st' -> goes (k b) s a st') -> goes (bind m k) st a st'.
Proof.
  intros Hm Hr Hk. eapply g_bind; eauto. exists st'. split; [constructor|apply same_refl].
Qed.

Ltac get1 := eapply g_get; [eassumption|]; let s := fresh "s" in let E := fresh "El" in let H := fresh "Hr" in
  intros s E H; cbn beta iota.
Ltac peek1 := eapply g_peek; [eassumption|]; let s := fresh "s" in let H := fresh "Hr" in
  intros s H; cbn [peeked]; cbn beta iota.
Ltac pos1 := apply g_pos; match goal with H : line ?s = _ |- context [line ?s] => rewrite H end.
Ltac seq1 L := eapply g_seq; [|eassumption|]; [eapply L; eauto; try lia|];
  let s := fresh "s" in let H := fresh "Hr" in intros s H; cbn beta iota.
Ltac last1 L := eapply g_seq_last; [|eassumption|]; [eapply L; eauto; try lia|];
  let s := fresh "s" in let H := fresh "Hr" in intros s H; cbn beta iota.
Ltac ret1 := apply g_ret; assumption.
Ltac len := repeat match goal with
  | H : _ <= _ |- _ => progress (cbn [length app] in H; rewrite ?app_length in H; cbn [length] in H)
  | H : _ < _ |- _ => progress (cbn [length app] in H; rewrite ?app_length in H; cbn [length] in H)
  end.
Lemma cpl_goes {A} (m : P A) ts a st st' : cpl m ts a -> ReadsE st ts st' -> goes m st a st'.
Proof. auto. Qed.
Ltac fin L := eapply cpl_goes; [eapply L; eauto; try lia|eassumption].

Lemma gargs_nonempty ts syms : GArgs ts syms -> ts <> [].
Proof. intros Hg. inversion Hg as [ns l|ns l]; subst; destruct ns; discriminate. Qed.

(** One more name in front of a typed list. *)
Lemma args_loop_complete : forall n o r t l us st st' syms,
  GArgs (ids o ++ (t, l) :: us) syms -> line st = l ->
  S (length us) <= n -> ReadsE st us st' ->
  goes (args_loop n o r t) st (r ++ syms) st'.
Proof.
  assert (Hids : forall o o' (x y : list tok), ids o ++ x = ids o' ++ y ->
     (exists z, o' = o ++ z /\ x = ids z ++ y) \/ (exists z, o = o' ++ z /\ y = ids z ++ x)).
  { induction o as [|[a la] o IH]; intros o' x y E.
    - left. exists o'. auto.
    - destruct o' as [|[b lb] o']; simpl in E.
      + right. exists ((a, la) :: o). auto.
      + injection E as -> -> E. destruct (IH _ _ _ E) as [(z & -> & ->)|(z & -> & ->)].
        * left. exists z. auto.
        * right. exists z. auto. }
  assert (Hsn : forall o x l y, ids (o ++ [(x, l)]) ++ y = ids o ++ (TIdent x, l) :: y).
  { intros. unfold ids. rewrite map_app, <- app_assoc. reflexivity. }
  induction n as [|n IH]; intros o r t l us st st' syms Hg El Hn Hr; [lia|]. cbn [args_loop].
  inversion Hg as [ns l0 E1 E2|ns l0 ty lt ts rest Hg' E1 E2]; subst syms.
  - apply eq_sym, Hids in E1 as [(z & -> & E)|(z & -> & E)].
    + destruct z as [|[zn zl] z]; simpl in E.
      * injection E as -> -> ->. rewrite app_nil_r. ret1.
      * injection E as -> -> ->. pos1. destruct z as [|[z2 zl2] z]; cbn [ids map app] in Hr.
        -- get1. eapply IH; [|eassumption| |eassumption]; [|unfold ids in *; simpl in *; lia].
           rewrite Hsn. exact Hg.
        -- get1. eapply IH; [|eassumption| |eassumption]; [|unfold ids in *; simpl in *; lia].
           rewrite Hsn. exact Hg.
    + destruct z as [|[zn zl] z]; simpl in E.
      * injection E as <- <- <-. rewrite app_nil_r. ret1.
      * discriminate.
  - apply eq_sym, Hids in E1 as [(z & -> & E)|(z & -> & E)].
    + destruct z as [|[zn zl] z]; simpl in E.
      * injection E as -> -> ->. rewrite app_nil_r. get1. pos1. cbn beta iota.
        assert (ts <> []) as Hne by (eapply gargs_nonempty; eauto).
        destruct ts as [|[t2 l2] ts]; [congruence|]. get1.
        rewrite app_assoc. change (map (with_type ty lt)) with (map (typed ty lt)).
        eapply (IH []); [exact Hg'|eassumption| |eassumption]; simpl in *; lia.
      * injection E as -> -> ->. pos1. destruct z as [|[z2 zl2] z]; cbn [ids map app] in Hr.
        -- get1. eapply IH; [|eassumption| |eassumption]; [|unfold ids in *; simpl in *; lia].
           rewrite Hsn. exact Hg.
        -- get1. eapply IH; [|eassumption| |eassumption]; [|unfold ids in *; simpl in *; lia].
           rewrite Hsn. exact Hg.
    + destruct z as [|[zn zl] z]; simpl in E; [|discriminate].
      injection E as <- <- <-. rewrite app_nil_r. get1. pos1. cbn beta iota.
      assert (ts <> []) as Hne by (eapply gargs_nonempty; eauto).
      destruct ts as [|[t2 l2] ts]; [congruence|]. get1.
      rewrite app_assoc. change (map (with_type ty lt)) with (map (typed ty lt)).
      eapply (IH []); [exact Hg'|eassumption| |eassumption]; simpl in *; lia.
Qed.

Lemma parse_args_complete n ts syms : GArgs ts syms -> length ts <= n -> cpl (parse_args n) ts syms.
Proof.
  intros Hg Hn st st' Hr. unfold parse_args. destruct ts as [|[t l] ts].
  - exfalso. eapply gargs_nonempty; eauto.
  - get1. apply (args_loop_complete n [] [] t l ts s st' syms); auto.
Qed.

Lemma parse_requirements_complete ts rs : GReqs ts rs -> forall n acc,
  length ts <= n -> cpl (parse_requirements n acc) ts (acc ++ rs).
Proof.
  induction 1 as [l|r l ts rs Hg IH]; intros n acc Hn st st' Hr; (destruct n as [|n]; [simpl in Hn; lia|]);
    cbn [parse_requirements].
  - get1. rewrite app_nil_r. ret1.
  - get1. replace (acc ++ r :: rs) with ((acc ++ [r]) ++ rs) by (rewrite <- app_assoc; reflexivity).
    apply IH; auto. simpl in Hn. lia.
Qed.

Lemma parse_predicates_complete ts ps : GPreds ts ps -> forall fuel n acc,
  length ts <= fuel -> length ts <= n -> cpl (parse_predicates fuel n acc) ts (acc ++ ps).
Proof.
  induction 1 as [l|l m ln ts vars us ps Hg Hps IH]; intros fuel n acc Hf Hn st st' Hr;
    (destruct n as [|n]; [simpl in Hn; lia|]); cbn [parse_predicates].
  - get1. rewrite app_nil_r. ret1.
  - len. get1. eapply g_seq with (us := id m ln :: ts).
    + intros s1 s2 Hr2. unfold parse_predicate_definition. get1. pos1. last1 parse_args_complete. ret1.
    + exact Hr0.
    + intros s1 Hr1. cbn beta.
      replace (acc ++ mkPred m ln vars :: ps) with ((acc ++ [mkPred m ln vars]) ++ ps)
        by (rewrite <- app_assoc; reflexivity).
      apply IH; auto; lia.
Qed.

Lemma parse_functions_complete ts ps : GFuncs ts ps -> forall fuel n acc,
  length ts <= fuel -> length ts <= n -> cpl (parse_functions fuel n acc) ts (acc ++ ps).
Proof.
  induction 1 as [l|l m ln ts vars us ps Hg Hps IH]; intros fuel n acc Hf Hn st st' Hr;
    (destruct n as [|n]; [simpl in Hn; lia|]); cbn [parse_functions].
  - get1. rewrite app_nil_r. ret1.
  - len. get1. eapply g_seq with (us := id m ln :: ts).
    + intros s1 s2 Hr2. unfold parse_function_definition. get1. pos1. last1 parse_args_complete. ret1.
    + exact Hr0.
    + intros s1 Hr1. cbn beta.
      replace (acc ++ mkFunc m ln vars :: ps) with ((acc ++ [mkFunc m ln vars]) ++ ps)
        by (rewrite <- app_assoc; reflexivity).
      apply IH; auto; lia.
Qed.

Lemma gformula_nonempty ts f : GFormula ts f -> 1 <= length ts.
Proof. inversion 1; subst; simpl; lia. Qed.
Lemma gmembers_nonempty ts f : GMembers ts f -> 1 <= length ts.
Proof.
  inversion 1 as [? Hf|? ? ? ? Hf]; subst; apply gformula_nonempty in Hf; auto.
  rewrite app_length. lia.
Qed.

Lemma parse_formula_complete fuel ts f : GFormula ts f -> forall n,
  length ts <= fuel -> length ts <= n -> cpl (parse_formula fuel n) ts f.
Proof.
  revert ts f.
  apply (GFormula_mut
    (fun ts f _ => forall n, length ts <= fuel -> length ts <= n -> cpl (parse_formula fuel n) ts f)
    (fun ts fs _ => forall n acc, length ts <= fuel -> length ts < n ->
       cpl (connective fuel n acc) ts (acc ++ fs))
    (fun ts fs _ => forall n acc, length ts <= fuel -> length ts <= n ->
       cpl (branches fuel n acc) ts (acc ++ fs))).
  - intros l n Hf Hn st st' Hr. destruct n as [|n]; [simpl in Hn; lia|]. cbn [parse_formula]. get1. ret1.
  - intros l1 l2 n Hf Hn st st' Hr. destruct n as [|n]; [simpl in Hn; lia|]. cbn [parse_formula].
    get1. get1. ret1.
  - intros l m ln ts vars Hg n Hf Hn st st' Hr. destruct n as [|n]; [simpl in Hn; lia|].
    cbn [parse_formula]. len. get1. get1. pos1. last1 parse_args_complete. ret1.
  - intros l1 l2 ts f l3 Hg IH n Hf Hn st st' Hr. destruct n as [|n]; [simpl in Hn; lia|].
    cbn [parse_formula]. len. get1. get1. seq1 IH. get1. ret1.
  - intros l1 l2 ts fs Hg IH n Hf Hn st st' Hr. destruct n as [|n]; [simpl in Hn; lia|].
    cbn [parse_formula]. len. get1. get1. last1 (IH n []). ret1.
  - intros l1 l2 ts fs Hg IH n Hf Hn st st' Hr. destruct n as [|n]; [simpl in Hn; lia|].
    cbn [parse_formula]. len. get1. get1. last1 (IH n []). ret1.
  - intros l1 l2 ts fs Hg IH n Hf Hn st st' Hr. destruct n as [|n]; [simpl in Hn; lia|].
    cbn [parse_formula]. len. get1. get1. last1 (IH n []). ret1.
  - intros l1 l2 a la b lb l3 n Hf Hn st st' Hr. destruct n as [|n]; [simpl in Hn; lia|].
    cbn [parse_formula]. get1. get1. get1. get1. get1. ret1.
  - intros l1 l2 l3 ts vars us f l4 Ha Hg IH n Hf Hn st st' Hr. destruct n as [|n]; [simpl in Hn; lia|].
    cbn [parse_formula]. len. get1. get1. get1. seq1 parse_args_complete. seq1 IH. get1. ret1.
  - intros l1 l2 l3 ts vars us f l4 Ha Hg IH n Hf Hn st st' Hr. destruct n as [|n]; [simpl in Hn; lia|].
    cbn [parse_formula]. len. get1. get1. get1. seq1 parse_args_complete. seq1 IH. get1. ret1.
  - intros l1 l2 ts fs Hg IH n Hf Hn st st' Hr. destruct n as [|n]; [simpl in Hn; lia|].
    cbn [parse_formula]. len. get1. get1. last1 (IH n []). ret1.
  - (* members: end *)
    intros ts Hg IH n acc Hf Hn st st' Hr. destruct n as [|n]; [lia|]. cbn [connective].
    last1 IH. rewrite app_nil_r. ret1.
  - (* members: cons *)
    intros ts f us fs Hg IH Hne Hm IHm n acc Hf Hn st st' Hr. destruct n as [|n]; [lia|].
    cbn [connective]. assert (Hl := gformula_nonempty _ _ Hg). assert (Hl2 := gmembers_nonempty _ _ Hm).
    len. seq1 IH.
    replace (acc ++ f :: fs) with ((acc ++ [f]) ++ fs) by (rewrite <- app_assoc; reflexivity).
    destruct f; try congruence; apply IHm; auto; lia.
  - intros l n acc Hf Hn st st' Hr. destruct n as [|n]; [simpl in Hn; lia|]. cbn [branches].
    get1. rewrite app_nil_r. ret1.
  - intros w l ts f us fs Hg IH Hne Hm IHm n acc Hf Hn st st' Hr. destruct n as [|n]; [simpl in Hn; lia|].
    cbn [branches]. len. get1. seq1 IH.
    replace (acc ++ FWeighted w f :: fs) with ((acc ++ [FWeighted w f]) ++ fs)
      by (rewrite <- app_assoc; reflexivity).
    destruct f; try congruence; apply IHm; auto; lia.
Qed.

Lemma formula_complete n ts f : GFormula ts f -> length ts <= n -> cpl (parse_formula n n) ts f.
Proof. intros. apply parse_formula_complete; auto. Qed.

Lemma parse_task_complete n ts t : GTask ts t -> length ts <= n -> cpl (parse_task n) ts t.
Proof.
  intros [nm ln l1 l2 us params Hg] Hn st st' Hr. unfold parse_task. len.
  get1. pos1. get1. get1. last1 parse_args_complete. ret1.
Qed.

Lemma parse_action_complete n ts t : GAction ts t -> length ts <= n -> cpl (parse_action n) ts t.
Proof.
  intros [tts nm ln params us pre vs eff l Ht Hp He] Hn st st' Hr. unfold parse_action.
  repeat rewrite app_length in Hn. len.
  seq1 parse_task_complete. cbn [task_name task_pos task_params].
  assert (Hpre : exists t x tl, us ++ vs ++ [rp l] = (t, x) :: tl /\
     (us = [] -> t = TKeyword KEffect \/ t = TPunct RParen)).
  { destruct Hp; [|simpl; do 3 eexists; split; [reflexivity|discriminate]].
    destruct He; simpl; do 3 eexists; (split; [reflexivity|auto]). }
  destruct Hpre as (t0 & x & tl & Ets & Hcase).
  assert (Heff : forall s0, ReadsE s0 (vs ++ [rp l]) st' ->
    goes (bind peek (fun lb =>
           bind (match lb with
                 | TKeyword KEffect =>
                   bind get (fun _ => bind (parse_formula n n) (fun f => ret (Some f)))
                 | TPunct RParen => ret None
                 | other => syn ("(potentially empty) effects of " ++ nm)%string other
                 end) (fun eff' =>
           bind get (fun c => match c with
             | TPunct RParen => ret (mkAction nm ln params pre eff')
             | other => syn ("closing the scope of " ++ nm ++ " using ')'")%string other
             end)))) s0 (mkAction nm ln params pre eff) st').
  { intros s0 Hr1. destruct He as [|l' ts' f' Hf']; simpl app in Hr1.
    - peek1. eapply g_seq with (us := []); [intros sa sb Hab; ret1|exact Hr2|].
      intros sa Hsa. cbn beta. get1. ret1.
    - peek1. eapply g_seq with (us := kw KEffect l' :: ts').
      + intros sa sb Hab. get1. len. last1 formula_complete. ret1.
      + exact Hr2.
      + intros sa Hsa. cbn beta. get1. ret1. }
  destruct Hp as [|l' ts' f' Hf'].
  - simpl app in *. rewrite Ets in Hr0. peek1. rewrite <- Ets in Hr1.
    eapply g_seq with (us := []) (b := None); [|exact Hr1|].
    + intros sa sb Hab. destruct (Hcase eq_refl) as [->| ->]; cbn [peeked]; ret1.
    + exact Heff.
  - simpl app in *. peek1. eapply g_seq with (us := kw KPrecondition l' :: ts').
    + intros sa sb Hab. get1. len. last1 formula_complete. ret1.
    + exact Hr1.
    + exact Heff.
Qed.

Lemma ordering_ids_complete msg t1 : forall ns l n acc,
  length ns < n ->
  cpl (ordering_ids msg t1 n acc) (ids ns ++ [rp l]) (acc ++ map (fun x => (t1, fst x)) ns).
Proof.
  induction ns as [|[x lx] ns IH]; intros l n acc Hn st st' Hr; (destruct n as [|n]; [lia|]);
    cbn [ordering_ids]; cbn [ids map app] in Hr.
  - get1. rewrite app_nil_r. ret1.
  - get1. replace (acc ++ map _ _) with ((acc ++ [(t1, x)]) ++ map (fun x => (t1, fst x)) ns)
      by (rewrite <- app_assoc; reflexivity).
    apply (IH l n); auto. simpl in Hn. lia.
Qed.

Lemma ids_length ns : length (ids ns) = length ns.
Proof. apply map_length. Qed.

Lemma parse_ordering_complete n ts o : GOrder ts o -> length ts <= n -> cpl (parse_ordering n) ts o.
Proof.
  intros [l1 t1 lt ns l2] Hn st st' Hr. unfold parse_ordering. len. rewrite ids_length in Hn.
  get1. get1. apply (ordering_ids_complete _ t1 ns l2 n []); auto. lia.
Qed.

Lemma ordering_conj_complete fuel ts o : GOrderList ts o -> forall n acc,
  length ts <= fuel -> length ts <= n -> cpl (ordering_conj fuel n acc) ts (acc ++ o).
Proof.
  induction 1 as [l|l ts o us os Hg Hl IH]; intros n acc Hf Hn st st' Hr;
    (destruct n as [|n]; [simpl in Hn; lia|]); cbn [ordering_conj].
  - get1. rewrite app_nil_r. ret1.
  - len. get1. seq1 parse_ordering_complete. rewrite app_assoc. apply IH; auto; lia.
Qed.

Lemma parse_orderings_complete n acc ts o : GOrderings ts o -> length ts <= n ->
  cpl (parse_orderings n acc) ts (acc ++ o).
Proof.
  intros Hg Hn st st' Hr. unfold parse_orderings. destruct Hg as [l1 l2|l ts o Hg|l1 l2 ts o Hg].
  - get1. get1. rewrite app_nil_r. ret1.
  - destruct Hg as [l1 t1 lt ns l2]. len. rewrite ids_length in Hn. get1. get1. get1.
    apply (ordering_ids_complete _ t1 ns l2 n acc); auto. lia.
  - len. get1. get1. fin ordering_conj_complete.
Qed.

Lemma id_subtask_terms_complete i k : forall ns l1 l2 n acc,
  length ns < n ->
  cpl (id_subtask_terms i k n acc) (ids ns ++ [rp l1; rp l2]) (mkSub (Some i) k (acc ++ map untyped ns)).
Proof.
  induction ns as [|[x lx] ns IH]; intros l1 l2 n acc Hn st st' Hr; (destruct n as [|n]; [lia|]);
    cbn [id_subtask_terms]; cbn [ids map app] in Hr.
  - get1. get1. rewrite app_nil_r. ret1.
  - get1. pos1. replace (acc ++ map _ _) with ((acc ++ [plain (x, lx)]) ++ map untyped ns)
      by (rewrite <- app_assoc; reflexivity).
    apply (IH l1 l2 n); auto. simpl in Hn. lia.
Qed.

Lemma plain_subtask_terms_complete k y : forall ns l n acc,
  length ns < n ->
  cpl (plain_subtask_terms k y n acc) (ids ns ++ [rp l]) (mkSub None k (acc ++ map untyped ns)).
Proof.
  induction ns as [|[x lx] ns IH]; intros l n acc Hn st st' Hr; (destruct n as [|n]; [lia|]);
    cbn [plain_subtask_terms]; cbn [ids map app] in Hr.
  - get1. rewrite app_nil_r. ret1.
  - get1. pos1. replace (acc ++ map _ _) with ((acc ++ [plain (x, lx)]) ++ map untyped ns)
      by (rewrite <- app_assoc; reflexivity).
    apply (IH l n); auto. simpl in Hn. lia.
Qed.

Lemma parse_subtask_complete n ts s : GSubtask ts s -> length ts <= n -> cpl (parse_subtask n) ts s.
Proof.
  intros Hg Hn st st' Hr. unfold parse_subtask. destruct Hg as [nm ln ns l|i li l1 nm ln ns l2 l3].
  - len. rewrite ids_length in Hn. get1. pos1. cbn zeta. destruct ns as [|[x lx] ns]; cbn [ids map app] in Hr0.
    + get1. ret1.
    + get1. pos1. apply (plain_subtask_terms_complete _ x ns l n [plain (x, lx)]); auto. simpl in Hn. lia.
  - len. rewrite ids_length in Hn. get1. pos1. cbn zeta. get1. get1. pos1.
    apply (id_subtask_terms_complete _ _ ns l2 l3 n []); auto. lia.
Qed.

Lemma subtasks_loop_complete fuel ts o : GSubtaskList ts o -> forall n acc,
  length ts <= fuel -> length ts <= n -> cpl (subtasks_loop fuel n acc) ts (acc ++ o).
Proof.
  induction 1 as [l|l ts o us os Hg Hl IH]; intros n acc Hf Hn st st' Hr;
    (destruct n as [|n]; [simpl in Hn; lia|]); cbn [subtasks_loop].
  - get1. rewrite app_nil_r. ret1.
  - len. get1. seq1 parse_subtask_complete.
    replace (acc ++ o :: os) with ((acc ++ [o]) ++ os) by (rewrite <- app_assoc; reflexivity).
    apply IH; auto; lia.
Qed.

Lemma parse_subtasks_complete n ts o : GSubtasks ts o -> length ts <= n -> cpl (parse_subtasks n) ts o.
Proof.
  intros Hg Hn st st' Hr. unfold parse_subtasks. destruct Hg as [l1 l2|l ts o Hg|l1 l2 ts o Hg].
  - get1. peek1. get1. ret1.
  - len. get1.
    assert (Hs : forall s0, ReadsE s0 ts st' -> goes (bind (parse_subtask n) (fun s => ret [s])) s0 [o] st').
    { intros s0 H0. last1 parse_subtask_complete. ret1. }
    destruct Hg; (peek1; apply Hs; assumption).
  - len. get1. peek1. get1. apply (subtasks_loop_complete n ts o Hg n []); auto; lia.
Qed.

Lemma parse_constraint_complete ts c : GConstraint ts c -> cpl parse_constraint ts c.
Proof.
  intros Hg st st' Hr. unfold parse_constraint. destruct Hg; repeat get1; ret1.
Qed.

Lemma constraints_loop_complete ts o : GConstraintList ts o -> forall n acc,
  length ts <= n -> cpl (constraints_loop n acc) ts (acc ++ o).
Proof.
  induction 1 as [l|l ts o us os Hg Hl IH]; intros n acc Hn st st' Hr;
    (destruct n as [|n]; [simpl in Hn; lia|]); cbn [constraints_loop].
  - get1. rewrite app_nil_r. ret1.
  - len. get1. seq1 parse_constraint_complete.
    replace (acc ++ o :: os) with ((acc ++ [o]) ++ os) by (rewrite <- app_assoc; reflexivity).
    apply IH; auto; lia.
Qed.

Lemma parse_constraints_complete n ts o : GConstraints ts o -> length ts <= n -> cpl (parse_constraints n) ts o.
Proof.
  intros Hg Hn st st' Hr. unfold parse_constraints. destruct Hg as [l1 l2|l ts o Hg|l1 l2 ts o Hg].
  - get1. peek1. get1. ret1.
  - len. get1.
    assert (Hs : forall s0, ReadsE s0 ts st' -> goes (bind parse_constraint (fun s => ret [s])) s0 [o] st').
    { intros s0 H0. last1 parse_constraint_complete. ret1. }
    destruct Hg; (peek1; apply Hs; assumption).
  - len. get1. peek1. get1. apply (constraints_loop_complete ts o Hg n []); auto; lia.
Qed.

Lemma htn_loop_complete fuel s : forall o l c ts h, GClauses s o l c ts h -> forall n,
  length ts <= fuel -> length ts <= n -> cpl (htn_loop fuel n s o l c) ts h.
Proof.
  induction 1 as [o l c r|o l c p ts l' us h Ho Hc IH|o l c p ts c' us h Ho Hc IH];
    intros n Hf Hn st st' Hr; (destruct n as [|n]; [simpl in Hn; lia|]); cbn [htn_loop].
  - get1. ret1.
  - len. get1. pos1. seq1 parse_orderings_complete. apply IH; auto; lia.
  - len. get1. seq1 parse_constraints_complete. apply IH; auto; lia.
Qed.

(** Acceptance with the condition on the next token. *)
Definition cplo {A} (m : P A) (ts : list tok) (a : A) (b : bool) : Prop :=
  forall st st', ReadsE st ts st' -> (b = true -> next_rp st') -> goes m st a st'.

Lemma g_peek_rp {B} (k : token -> P B) st a st' :
  ReadsE st [] st' -> next_rp st' ->
  (forall s1, ReadsE s1 [] st' -> goes (k (TPunct RParen)) s1 a st') ->
  goes (bind peek k) st a st'.
Proof.
  intros Hr (l & s0 & E & El) Hk. apply readsE_nil in Hr. assert (Hr' := Hr).
  assert (get_token st = (LTok (TPunct RParen), s0)) as E' by (unfold get_token in *; rewrite Hr; auto).
  destruct (lookahead_of _ _ _ E') as (s2 & E2 & Hs).
  unfold goes, bind, peek. rewrite E2. simpl. apply Hk. exists s2. split; [constructor|].
  eapply same_trans; eauto.
Qed.

Lemma parse_htn_complete n ts h b : GHtn ts h b -> length ts <= n -> cplo (parse_htn n) ts h b.
Proof.
  intros Hg Hn st st' Hr Hb. unfold parse_htn.
  destruct Hg as [|l ts s us h Hs Hc|l ts s r Hs|l ts s l' us c Hs Hc].
  - eapply g_peek_rp; eauto. intros s1 H1. ret1.
  - len. peek1. get1. seq1 parse_subtasks_complete. fin htn_loop_complete.
  - len. peek1. get1. seq1 parse_subtasks_complete. get1. ret1.
  - len. peek1. get1. seq1 parse_subtasks_complete. get1. last1 parse_constraints_complete. ret1.
Qed.

Lemma g_seq_open {A B} (m : P A) (k : A -> P B) us b c a st st' :
  cplo m us c b -> ReadsE st us st' -> (b = true -> next_rp st') ->
  (forall s, ReadsE s [] st' -> goes (k c) s a st') -> goes (bind m k) st a st'.
Proof.
  intros Hm Hr Hb Hk. eapply g_bind; [apply Hm; eauto|exists st'; split; [constructor|apply same_refl]|auto].
Qed.

Ltac lasto1 L := eapply g_seq_open; [eapply L; eauto; try lia|eassumption|assumption|];
  let s := fresh "s" in let H := fresh "Hr" in intros s H; cbn beta iota.

Lemma parse_initial_tn_complete n ts h b : GInitTn ts h b -> length ts <= n -> cplo (parse_initial_tn n) ts h b.
Proof.
  intros Hg Hn st st' Hr Hb. unfold parse_initial_tn.
  destruct Hg as [ts h b Hh|l1 l2 ts params us h b Ha Hh].
  - assert (Hs : forall s0, ReadsE s0 ts st' -> goes (bind (parse_htn n) (fun tn => ret (mkInit None tn))) s0 (mkInit None h) st').
    { intros s0 H0. lasto1 parse_htn_complete. ret1. }
    destruct Hh.
    + eapply g_peek_rp; eauto. intros s1 H1. ret1.
    + peek1. apply Hs; auto.
    + peek1. apply Hs; auto.
    + peek1. apply Hs; auto.
  - len. peek1. get1. get1. seq1 parse_args_complete. lasto1 parse_htn_complete. ret1.
Qed.

Lemma parse_method_complete n ts m b : GMethod ts m b -> length ts <= n -> cplo (parse_method n) ts m b.
Proof.
  intros [nm ln l1 l2 us params l3 l4 t lt vs terms ws pre xs h b0 Ha Ht Hp Hh Hpre] Hn st st' Hr Hb.
  unfold parse_method. cbn [length app] in Hn. rewrite app_length in Hn. cbn [length] in Hn.
  rewrite !app_length in Hn.
  get1. pos1. cbn zeta. get1. get1. seq1 parse_args_complete. get1. get1. get1. pos1. cbn zeta.
  seq1 parse_args_complete.
  destruct Hp as [|l' ts' f' Hf'].
  - rewrite (Hpre eq_refl) in *. simpl app in *.
    assert (Hs : forall s0, ReadsE s0 xs st' ->
       goes (bind (parse_htn n) (fun tn => ret (mkMethod (plain (nm, ln)) (plain (t, lt)) terms params None tn))) s0
            (mkMethod (plain (nm, ln)) (plain (t, lt)) terms params None h) st').
    { intros s0' H0. eapply g_seq_open; [eapply parse_htn_complete; eauto; lia|exact H0|assumption|].
      intros sx Hx. ret1. }
    inversion Hh; subst; (peek1; apply Hs; assumption).
  - cbn [length] in Hn. simpl app in *. peek1. get1. seq1 formula_complete. lasto1 parse_htn_complete. ret1.
Qed.

Lemma next_rp_of st st' l : ReadsE st [rp l] st' -> next_rp st.
Proof. intros Hr. destruct (readsE_cons _ _ _ _ _ Hr) as (s & E & El & _). exists l, s. auto. Qed.

(** One block. *)
Lemma block_complete fuel n d ts b open us st st' res :
  GBlock ts b open -> length ts <= fuel ->
  ReadsE st (ts ++ us) st' -> (open = true -> exists l us', us = rp l :: us') ->
  (forall s, ReadsE s us st' -> goes (parse_domain fuel n (apply_block d b)) s res st') ->
  goes (parse_domain fuel (S n) d) st res st'.
Proof.
  intros Hg Hf Hr Hopen Hk. cbn [parse_domain].
  destruct Hg; simpl app in *; cbn [length] in Hf; get1; get1.
  - seq1 (parse_requirements_complete ts r); auto.
  - seq1 parse_args_complete; auto.
  - seq1 parse_args_complete; auto.
  - seq1 (parse_predicates_complete ts r); auto.
  - seq1 (parse_functions_complete ts r); auto.
  - rewrite app_length in Hf. rewrite <- app_assoc in Hr1. seq1 parse_task_complete.
    simpl app in *. get1. auto.
  - apply readsE_app in Hr1 as (sm & H1 & H2).
    eapply g_bind; [eapply parse_method_complete; eauto; [lia|]|exact H2|].
    + intros Hb. destruct (Hopen Hb) as (lx & us' & ->).
      destruct (readsE_cons _ _ _ _ _ H2) as (sx & Ex & Elx & _). exists lx, sx. auto.
    + auto.
  - seq1 parse_action_complete; auto.
Qed.

Lemma gblock_length ts b o : GBlock ts b o -> 2 <= length ts.
Proof. destruct 1; simpl; lia. Qed.

Lemma parse_domain_complete fuel ts bs : GBlocks ts bs -> forall n d,
  length ts <= fuel -> length ts <= n ->
  cpl (parse_domain fuel n d) ts (fold_left apply_block bs d).
Proof.
  induction 1 as [l|ts b l Hb|ts b us bs Hb Hbs IH]; intros n d Hf Hn st st' Hr;
    (destruct n as [|n]; [rewrite ?app_length in Hn; simpl in Hn; try (apply gblock_length in Hb); lia|]).
  - cbn [parse_domain]. get1. ret1.
  - rewrite app_length in Hf, Hn. assert (Hl := gblock_length _ _ _ Hb). simpl in *.
    eapply block_complete; [exact Hb|lia|exact Hr|eauto|]. intros s Hs.
    destruct n as [|n]; [lia|]. cbn [parse_domain]. get1. ret1.
  - rewrite app_length in Hf, Hn. assert (Hl := gblock_length _ _ _ Hb).
    eapply block_complete; [exact Hb|lia|exact Hr|discriminate|].
    intros s Hs. simpl. apply IH; auto; lia.
Qed.

Lemma rebuild_some l : (forall s, In s l -> (sym_type s = None <-> sym_type_pos s = None)) ->
  rebuild_objects l = Some l.
Proof.
  induction l as [|[n p t tp] l IH]; intros Hok; simpl; auto.
  assert (Hh : t = None <-> tp = None) by (apply (Hok (mkSym n p t tp)); simpl; auto).
  rewrite IH by (intros; apply Hok; simpl; auto).
  destruct t as [t|]; destruct tp as [tp|]; auto; exfalso.
  - destruct Hh as [_ Hh]. specialize (Hh eq_refl). discriminate.
  - destruct Hh as [Hh _]. specialize (Hh eq_refl). discriminate.
Qed.

Lemma gargs_typed_iff ts l : GArgs ts l ->
  forall s, In s l -> (sym_type s = None <-> sym_type_pos s = None).
Proof.
  induction 1 as [ns l|ns l t lt ts r Hg IH]; intros s Hi.
  - apply in_map_iff in Hi as (x & <- & _). simpl. tauto.
  - apply in_app_or in Hi as [Hi|Hi]; auto. apply in_map_iff in Hi as (x & <- & _). simpl.
    split; discriminate.
Qed.

Lemma pblock_complete fuel n d ts b open us st st' res :
  GPBlock ts b open -> length ts <= fuel ->
  ReadsE st (ts ++ us) st' -> (open = true -> exists l us', us = rp l :: us') ->
  (forall s, ReadsE s us st' -> goes (parse_problem fuel n (apply_pblock d b)) s res st') ->
  goes (parse_problem fuel (S n) d) st res st'.
Proof.
  intros Hg Hf Hr Hopen Hk. cbn [parse_problem].
  destruct Hg; simpl app in *; cbn [length] in Hf; get1; get1.
  - seq1 (parse_requirements_complete ts r); auto.
  - seq1 parse_args_complete. rewrite rebuild_some by (eapply gargs_typed_iff; eauto). auto.
  - apply readsE_app in Hr1 as (sm & H1 & H2).
    eapply g_bind; [eapply parse_initial_tn_complete; eauto; [lia|]|exact H2|].
    + intros Hb. destruct (Hopen Hb) as (lx & us' & ->).
      destruct (readsE_cons _ _ _ _ _ H2) as (sx & Ex & Elx & _). exists lx, sx. auto.
    + auto.
  - seq1 formula_complete; auto.
  - seq1 (parse_predicates_complete ts r); auto.
Qed.

Lemma gpblock_length ts b o : GPBlock ts b o -> 2 <= length ts.
Proof. destruct 1; simpl; lia. Qed.

Lemma parse_problem_complete fuel ts bs : GPBlocks ts bs -> forall n d,
  length ts <= fuel -> length ts <= n ->
  cpl (parse_problem fuel n d) ts (fold_left apply_pblock bs d).
Proof.
  induction 1 as [l|l|ts b l Hb|ts b us bs Hb Hbs IH]; intros n d Hf Hn st st' Hr;
    (destruct n as [|n]; [rewrite ?app_length in Hn; simpl in Hn; try (apply gpblock_length in Hb); lia|]).
  - cbn [parse_problem]. get1. ret1.
  - cbn [parse_problem]. get1. ret1.
  - rewrite app_length in Hf, Hn. assert (Hl := gpblock_length _ _ _ Hb). simpl in *.
    eapply pblock_complete; [exact Hb|lia|exact Hr|eauto|]. intros s Hs.
    destruct n as [|n]; [lia|]. cbn [parse_problem]. get1. ret1.
  - rewrite app_length in Hf, Hn. assert (Hl := gpblock_length _ _ _ Hb).
    eapply pblock_complete; [exact Hb|lia|exact Hr|discriminate|].
    intros s Hs. simpl. apply IH; auto; lia.
Qed.

Theorem parse_doc_complete n ts a : GDocument ts a -> length ts <= n -> cpl (parse_doc n) ts a.
Proof.
  intros Hg Hn st st' Hr. unfold parse_doc, parse_document_type.
  destruct Hg as [l1 l2 l3 l4 nm ln l5 ts bs Hb|l1 l2 l3 l4 nm ln l5 l6 l7 m lm l8 ts bs Hb];
    cbn [length] in Hn.
  - get1. eapply g_seq with (us := [kw KDefine l2; lp l3; kw KDomain l4; id nm ln; rp l5]) (b := DefDomain nm).
    + intros sa sb Hab. repeat get1. unfold parse_domain_header. repeat get1. ret1.
    + exact Hr0.
    + intros sa Hsa. cbn beta iota. last1 (parse_domain_complete n ts bs Hb n (new_domain nm)).
      change (new_domain nm) with (domain_of nm []). rewrite fold_domain. ret1.
  - get1. eapply g_seq with (us := [kw KDefine l2; lp l3; kw KProblem l4; id nm ln; rp l5; lp l6; kw KDomain l7; id m lm; rp l8])
      (b := DefProblem nm m).
    + intros sa sb Hab. repeat get1. unfold parse_problem_header. repeat get1. ret1.
    + exact Hr0.
    + intros sa Hsa. cbn beta iota. last1 (parse_problem_complete n ts bs Hb n new_problem).
      change new_problem with (problem_of []). rewrite fold_problem. ret1.
Qed.

End Complete.
