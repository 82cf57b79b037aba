(** Proofs about the depth of recursion. *)
From Coq Require Import String Ascii NArith ZArith Bool List Lia PeanoNat.
From Verif Require Import Base Token Lexer Errors Ast Parser Semantic Stack
  StrFacts SpecLex LexProofs LexProofs2 LexProofs3 AstRel ParserRel ParserProofs FormulaInd SpecStack.
Import ListNotations.
Open Scope list_scope.
Open Scope nat_scope.

Section Proofs.
Context `{Unicode}.

(** ** A run that fits is a run of the parser *)
Definition agrees {A} (s : SP A) (m : P A) : Prop := forall st r, s st = Fits r -> m st = r.

Lemma ag_lift {A} (m : P A) : agrees (lift m) m.
Proof. intros st r E. inversion E. auto. Qed.
Lemma ag_over {A} (m : P A) : agrees soverflow m.
Proof. intros st r E. discriminate. Qed.
Lemma ag_bind {A B} s m (ks : A -> SP B) k : agrees s m -> (forall a, agrees (ks a) (k a)) -> agrees (sbind s ks) (bind m k).
Proof.
  intros Hm Hk st r E. unfold sbind in E. unfold bind. destruct (s st) as [x|] eqn:Es; [|discriminate].
  rewrite (Hm _ _ Es). destruct x; try congruence. apply Hk; auto.
Qed.

Ltac ag :=
  repeat match goal with
  | |- agrees (sbind _ _) (bind _ _) => apply ag_bind; [|intro]
  | |- agrees (lift ?m) ?m => apply ag_lift
  | |- agrees (sret ?m) (ret ?m) => apply ag_lift
  | |- agrees soverflow _ => apply ag_over
  | |- agrees (match ?x with _ => _ end) _ => destruct x
  end; auto.

Lemma formula_ag fuel : forall n,
  (forall d, agrees (parse_formula_in d fuel n) (parse_formula fuel n))
  /\ (forall d acc, agrees (connective_in d fuel n acc) (connective fuel n acc))
  /\ (forall d acc, agrees (branches_in d fuel n acc) (branches fuel n acc)).
Proof.
  induction n as [|n (IF & IC & IB)]; repeat split; intros; cbn [parse_formula_in connective_in branches_in parse_formula connective branches]; ag.
Qed.
Lemma parse_action_ag d n : agrees (parse_action_in d n) (parse_action n).
Proof. unfold parse_action_in, parse_action. ag; apply formula_ag. Qed.
Lemma parse_method_ag d n : agrees (parse_method_in d n) (parse_method n).
Proof. unfold parse_method_in, parse_method. cbv zeta. ag; apply formula_ag. Qed.
Lemma parse_domain_ag d fuel : forall n a, agrees (parse_domain_in d fuel n a) (parse_domain fuel n a).
Proof. induction n as [|n IH]; intros a; cbn [parse_domain_in parse_domain]; ag; first [apply parse_method_ag|apply parse_action_ag]. Qed.
Lemma parse_problem_ag d fuel : forall n a, agrees (parse_problem_in d fuel n a) (parse_problem fuel n a).
Proof. induction n as [|n IH]; intros a; cbn [parse_problem_in parse_problem]; ag; apply formula_ag. Qed.
Lemma parse_doc_ag d n : agrees (parse_doc_in d n) (parse_doc n).
Proof. unfold parse_doc_in, parse_doc. ag; first [apply parse_domain_ag|apply parse_problem_ag]. Qed.

Lemma parse_in_agrees d n program r : parse_in d n program = Fits r -> parse n program = r.
Proof.
  unfold parse_in, parse. destruct (parse_doc_in d n (lex_new program)) as [x|] eqn:E; [|discriminate].
  rewrite (parse_doc_ag _ _ _ _ E). destruct x; congruence.
Qed.

(** ** How many frames a successful run needs *)
Definition exact {A} (s : nat -> SP A) (m : P A) (K : A -> nat -> Prop) : Prop :=
  forall st a st', m st = POk a st' ->
  exists k, K a k /\ forall d, s d st = if d <? k then Overflow else Fits (POk a st').

Lemma ex_ret {A} (a : A) (K : A -> nat -> Prop) : K a 0 -> exact (fun _ => sret a) (ret a) K.
Proof. intros Hk st b st' E. inversion E; subst. exists 0. auto. Qed.
Lemma ex_never {A} s (m : P A) K : (forall st a st', m st <> POk a st') -> exact s m K.
Proof. intros Hn st a st' E. destruct (Hn _ _ _ E). Qed.
Lemma ex_lift {A B} (m : P A) (ks : nat -> A -> SP B) k K :
  (forall a, exact (fun d => ks d a) (k a) K) -> exact (fun d => sbind (lift m) (ks d)) (bind m k) K.
Proof.
  intros Hk st b st2 E. unfold bind in E. destruct (m st) as [a st1| | |] eqn:Em; try discriminate.
  destruct (Hk a _ _ _ E) as (j & Hj & Hd). exists j. split; auto. intros d. unfold sbind, lift. rewrite Em. apply Hd.
Qed.
Lemma ex_bind {A B} s (m : P A) (ks : nat -> A -> SP B) k K1 K :
  exact s m K1 -> (forall a k1, K1 a k1 -> exact (fun d => ks d a) (k a) (fun b k2 => K b (Nat.max k1 k2))) ->
  exact (fun d => sbind (s d) (ks d)) (bind m k) K.
Proof.
  intros Hm Hk st b st2 E. unfold bind in E. destruct (m st) as [a st1| | |] eqn:Em; try discriminate.
  destruct (Hm _ _ _ Em) as (k1 & H1 & E1). destruct (Hk a k1 H1 _ _ _ E) as (k2 & H2 & E2).
  exists (Nat.max k1 k2). split; auto. intros d. unfold sbind. rewrite E1.
  destruct (Nat.ltb_spec d k1); destruct (Nat.ltb_spec d (Nat.max k1 k2)); auto; try lia.
  - rewrite E2. destruct (Nat.ltb_spec d k2); auto; lia.
  - rewrite E2. destruct (Nat.ltb_spec d k2); auto; lia.
Qed.
Lemma ex_frame {A} s (m : P A) K : exact s m (fun a k => K a (S k)) ->
  exact (fun d => match d with O => soverflow | S d' => s d' end) m K.
Proof.
  intros Hm st a st' E. destruct (Hm _ _ _ E) as (k & Hk & Hd). exists (S k). split; auto.
  intros [|d]; [reflexivity|]. rewrite Hd. reflexivity.
Qed.
Lemma ex_weak {A} s (m : P A) (K K' : A -> nat -> Prop) : exact s m K -> (forall a k, K a k -> K' a k) -> exact s m K'.
Proof. intros Hm Hi st a st' E. destruct (Hm _ _ _ E) as (k & Hk & Hd). eauto. Qed.

Lemma never_syn {A} x t : forall st (a : A) st', syn x t st <> POk a st'.
Proof. discriminate. Qed.
Lemma never_panic {A} p : forall st (a : A) st', ppanic p st <> POk a st'.
Proof. discriminate. Qed.

Ltac ex :=
  repeat match goal with
  | |- exact _ (bind (ret _) _) _ => fail 1
  | |- exact _ (bind (parse_formula _ _) _) _ => fail 1
  | |- exact _ (bind (connective _ _ _) _) _ => fail 1
  | |- exact _ (bind (branches _ _ _) _) _ => fail 1
  | |- exact _ (bind (parse_method _) _) _ => fail 1
  | |- exact _ (bind (parse_action _) _) _ => fail 1
  | |- exact _ (bind (match _ with _ => _ end) _) _ => fail 1
  | |- exact _ (bind _ _) _ => apply ex_lift; intro
  | |- exact _ (syn _ _) _ => apply ex_never, never_syn
  | |- exact _ (ppanic _) _ => apply ex_never, never_panic
  | |- exact _ (match ?x with _ => _ end) _ => destruct x
  end.

(** New formulas [fs] behind those read before. *)
Definition read_list (acc : list formula) (low : nat) (fs : list formula) (k : nat) : Prop :=
  exists new ks, fs = acc ++ new /\ Forall2 nested new ks /\ k = Nat.max low (list_max ks).

Lemma read_end acc low : read_list acc low acc low.
Proof. exists [], []. rewrite app_nil_r. simpl. split; auto. split; [constructor|lia]. Qed.
Lemma read_more acc low f k1 fs k2 : nested f k1 -> read_list (acc ++ [f]) low fs k2 -> read_list acc low fs (Nat.max k1 k2).
Proof.
  intros Hf (new & ks & -> & Hn & ->). exists (f :: new), (k1 :: ks). rewrite <- app_assoc. split; auto.
  split; [constructor; auto|]. simpl. lia.
Qed.

(** New branches behind those read before. *)
Definition branch (b : number * formula) : formula := FWeighted (fst b) (snd b).
Definition read_branches (acc fs : list formula) (k : nat) : Prop :=
  exists new ks, fs = acc ++ map branch new /\ Forall2 (fun b k => nested (snd b) k) new ks /\ k = list_max ks.

Lemma branches_end acc : read_branches acc acc 0.
Proof. exists [], []. simpl. rewrite app_nil_r. split; auto. Qed.
Lemma branches_more acc w f k1 fs k2 : nested f k1 -> read_branches (acc ++ [FWeighted w f]) fs k2 -> read_branches acc fs (Nat.max k1 k2).
Proof.
  intros Hf (new & ks & -> & Hn & ->). exists ((w, f) :: new), (k1 :: ks). rewrite <- app_assoc. split; auto.
Qed.

Lemma formula_ex fuel : forall n,
  exact (fun d => parse_formula_in d fuel n) (parse_formula fuel n) nested
  /\ (forall acc, exact (fun d => connective_in d fuel n acc) (connective fuel n acc) (read_list acc 1))
  /\ (forall acc, exact (fun d => branches_in d fuel n acc) (branches fuel n acc) (read_branches acc)).
Proof.
  assert (Hfuel : forall A s (K : A -> nat -> Prop), exact s (fun _ => PFuel) K) by (intros; apply ex_never; discriminate).
  induction n as [|n (IF & IC & IB)]; repeat split; intros; cbn [parse_formula_in connective_in branches_in parse_formula connective branches]; try apply Hfuel.
  - apply ex_frame. ex; try (apply ex_ret; constructor).
    all: eapply ex_bind; [first [apply IC|apply IB|apply IF]|].
    all: intros ff k1 Hk; ex; apply ex_ret; rewrite Nat.max_0_r.
    all: try (destruct Hk as (new & ks & -> & Hn & ->)).
    all: try (constructor; assumption).
  - eapply ex_bind; [apply IF|]. intros f k1 Hf. destruct f.
    1: { inversion Hf; subst. apply ex_ret. apply read_end. }
    all: eapply ex_weak; [apply IC|]; intros gs k2 Hr; eapply read_more; eauto.
  - apply ex_lift. intros t. ex; [|apply ex_ret; apply branches_end].
    eapply ex_bind; [apply IF|]. intros f k1 Hf. destruct f; ex.
    all: eapply ex_weak; [apply IB|]; intros gs k2 Hr; eapply branches_more; [exact Hf|exact Hr].
Qed.
Definition formula_exact fuel n := proj1 (formula_ex fuel n).

(** The nesting of optional formulas. *)
Definition depth_of (fs : list formula) (k : nat) : Prop := exists ks, Forall2 nested fs ks /\ k = list_max ks.

Lemma depth_nil : depth_of [] 0.
Proof. exists []. split; [constructor|auto]. Qed.
Lemma depth_one f k : nested f k -> depth_of [f] k.
Proof. intros Hf. exists [k]. split; [constructor; auto|]. simpl. lia. Qed.
Lemma depth_app fs gs j k : depth_of fs j -> depth_of gs k -> depth_of (fs ++ gs) (Nat.max j k).
Proof.
  intros (js & Hj & ->) (ks & Hk & ->). exists (js ++ ks). split; [apply Forall2_app; auto|]. symmetry. apply list_max_app.
Qed.
Lemma list_max_in l : list_max l = 0 \/ In (list_max l) l.
Proof.
  induction l as [|x l IH]; simpl; auto. destruct (Nat.max_dec x (list_max l)) as [E|E]; rewrite E; auto.
  destruct IH as [E0|E0]; auto.
Qed.
Lemma depth_deepest fs k : depth_of fs k -> deepest fs k.
Proof.
  intros (ks & Hf & ->). split.
  - induction Hf as [|f k fs ks Hf Hr IH]; simpl; [tauto|]. intros g [<-|Hi].
    + exists k. split; auto. lia.
    + destruct (IH g Hi) as (j & Hj & Hl). exists j. split; auto. lia.
  - destruct (list_max_in ks) as [E|E]; auto. right. revert E. generalize (list_max ks). clear -Hf. intros k.
    induction Hf; simpl; [tauto|]. intros [->|Hi]; [eauto|]. destruct (IHHf Hi) as (f & Hf' & Hk). eauto.
Qed.

Definition act_formulas (x : action) : list formula := opt_list (act_pre x) ++ opt_list (act_eff x).

Lemma opt_ex n : exact (fun d => sbind (parse_formula_in d n n) (fun f => sret (Some f))) (bind (parse_formula n n) (fun f => ret (Some f)))
  (fun o k => depth_of (opt_list o) k).
Proof.
  eapply ex_bind; [apply formula_exact|]. intros f k1 Hf. apply ex_ret. rewrite Nat.max_0_r. apply depth_one; auto.
Qed.

Lemma parse_action_ex n : exact (fun d => parse_action_in d n) (parse_action n) (fun x k => depth_of (act_formulas x) k).
Proof.
  unfold parse_action_in, parse_action. ex.
  eapply (ex_bind _ _ _ _ (fun o k => depth_of (opt_list o) k)).
  - ex; try (apply ex_ret; apply depth_nil). apply opt_ex.
  - intros pre k1 H1. ex.
    eapply (ex_bind _ _ _ _ (fun o k => depth_of (opt_list o) k)).
    + ex; try (apply ex_ret; apply depth_nil). apply opt_ex.
    + intros eff k2 H2. ex. apply ex_ret. rewrite Nat.max_0_r. apply depth_app; auto.
Qed.
Lemma parse_method_ex n : exact (fun d => parse_method_in d n) (parse_method n) (fun x k => depth_of (opt_list (m_pre x)) k).
Proof.
  unfold parse_method_in, parse_method. cbv zeta. ex; try (apply ex_ret; apply depth_nil).
  eapply ex_bind; [apply formula_exact|]. intros f k1 Hf. ex. apply ex_ret. rewrite Nat.max_0_r. apply depth_one; auto.
Qed.

(** Formulas read behind those of the domain [a]. *)
Definition domain_depth (a b : domain_ast) (k : nat) : Prop :=
  exists xs ms j i, d_actions b = d_actions a ++ xs /\ d_methods b = d_methods a ++ ms
    /\ depth_of (flat_map act_formulas xs) j /\ depth_of (flat_map (fun m => opt_list (m_pre m)) ms) i /\ k = Nat.max j i.

Lemma dd_refl a : domain_depth a a 0.
Proof. exists [], [], 0, 0. rewrite !app_nil_r. repeat split; auto using depth_nil. Qed.
Lemma dd_same a a' b k : d_actions a' = d_actions a -> d_methods a' = d_methods a -> domain_depth a' b k -> domain_depth a b k.
Proof. intros Ea Em. unfold domain_depth. rewrite Ea, Em. auto. Qed.
Lemma dd_method a m b k1 k : depth_of (opt_list (m_pre m)) k1 -> domain_depth (add_method a m) b k -> domain_depth a b (Nat.max k1 k).
Proof.
  intros Hm (xs & ms & j & i & Ex & Em & Hj & Hi & ->). exists xs, (m :: ms), j, (Nat.max k1 i). split; [rewrite Ex; reflexivity|].
  split; [rewrite Em; simpl; rewrite <- app_assoc; reflexivity|]. split; auto. split; [simpl; apply depth_app; auto|lia].
Qed.
Lemma dd_action a x b k1 k : depth_of (act_formulas x) k1 -> domain_depth (add_action a x) b k -> domain_depth a b (Nat.max k1 k).
Proof.
  intros Hm (xs & ms & j & i & Ex & Em & Hj & Hi & ->). exists (x :: xs), ms, (Nat.max k1 j), i.
  split; [rewrite Ex; simpl; rewrite <- app_assoc; reflexivity|]. split; [rewrite Em; reflexivity|].
  split; [simpl; apply depth_app; auto|]. split; auto. lia.
Qed.

Lemma parse_domain_ex fuel : forall n a, exact (fun d => parse_domain_in d fuel n a) (parse_domain fuel n a) (domain_depth a).
Proof.
  assert (Hfuel : forall A s (K : A -> nat -> Prop), exact s (fun _ => PFuel) K) by (intros; apply ex_never; discriminate).
  induction n as [|n IH]; intros a; cbn [parse_domain_in parse_domain]; [apply Hfuel|]. ex; try (apply ex_ret; apply dd_refl).
  all: try (eapply ex_weak; [apply IH|]; intros b k Hb; eapply dd_same; [| |exact Hb]; reflexivity).
  - eapply ex_bind; [apply parse_action_ex|]. intros m k1 Hm. eapply ex_weak; [apply IH|]. intros b k. apply dd_action; auto.
  - eapply ex_bind; [apply parse_method_ex|]. intros m k1 Hm. eapply ex_weak; [apply IH|]. intros b k. apply dd_method; auto.
Qed.

(** The goal read last is among the formulas read. *)
Definition goal_depth (a b : problem_ast) (k : nat) : Prop :=
  p_goal b = p_goal a \/ exists g j, p_goal b = Some g /\ nested g j /\ j <= k.

Lemma parse_problem_ex fuel : forall n a, exact (fun d => parse_problem_in d fuel n a) (parse_problem fuel n a) (goal_depth a).
Proof.
  assert (Hfuel : forall A s (K : A -> nat -> Prop), exact s (fun _ => PFuel) K) by (intros; apply ex_never; discriminate).
  induction n as [|n IH]; intros a; cbn [parse_problem_in parse_problem]; [apply Hfuel|]. ex; try (apply ex_ret; left; reflexivity).
  all: try (eapply ex_weak; [apply IH|]; intros b k Hb; exact Hb).
  eapply ex_bind; [apply formula_exact|]. intros f k1 Hf. eapply ex_weak; [apply IH|].
  intros b k [E|(g & j & E & Hj & Hl)]; right; [exists f, k1|exists g, j]; simpl in *; repeat split; auto; lia.
Qed.

Definition doc_depth (a : ast) (k : nat) : Prop :=
  match a with
  | ADomain d => depth_of (formulas_of a) k
  | AProblem p => forall g, p_goal p = Some g -> exists j, nested g j /\ j <= k
  end.

Lemma parse_doc_ex n : exact (fun d => parse_doc_in d n) (parse_doc n) doc_depth.
Proof.
  unfold parse_doc_in, parse_doc. ex.
  - eapply ex_bind; [apply parse_domain_ex|]. intros b k (xs & ms & j & i & Ex & Em & Hj & Hi & ->). apply ex_ret.
    simpl in *. rewrite Ex, Em, Nat.max_0_r. apply depth_app; auto.
  - eapply ex_bind; [apply parse_problem_ex|]. intros b k Hb. apply ex_ret. rewrite Nat.max_0_r. simpl.
    intros g Eg. destruct Hb as [E|(g' & j & E & Hj & Hl)]; [rewrite E in Eg; discriminate|].
    assert (g' = g) by congruence. subst. eauto.
Qed.

Lemma parse_in_exact n program a : parse n program = Ok a ->
  exists k, doc_depth a k /\ forall d, parse_in d n program = if d <? k then Overflow else Fits (Ok a).
Proof.
  unfold parse, parse_in. intros E. destruct (parse_doc n (lex_new program)) as [b st| | |] eqn:Ep; try discriminate.
  injection E as ->. destruct (parse_doc_ex n _ _ _ Ep) as (k & Hk & Hd). exists k. split; auto.
  intros d. rewrite Hd. destruct (d <? k); auto.
Qed.

(** ** A bound for every document *)
Lemma opens_app a b : opens (a ++ b)%string = opens a + opens b.
Proof. induction a; simpl; auto. lia. Qed.

(** States with at most [b] opening parentheses ahead. *)
Definition few (b : nat) (st st' : lstate) : Prop := st = st' /\ opens (rest st) <= b.

Lemma few_lex p b : rp (fun _ _ => True) (few b) (fun _ => True) eq (fun st => of_lex (lex p st)) (fun st => of_lex (lex p st)).
Proof.
  intros st st' [<- Hb]. apply of_lex_refl; auto. intros t s E. split; auto.
  destruct (lex_suffix _ _ _ _ E) as (x & Ex); [discriminate|]. rewrite Ex, opens_app in Hb. lia.
Qed.

Definition shrinks {A} (m : P A) : Prop := forall st a st', m st = POk a st' -> opens (rest st') <= opens (rest st).
Lemma rp_shrinks {A} (R : A -> A -> Prop) (m : P A) :
  (forall b, rp (fun _ _ => True) (few b) (fun _ => True) R m m) -> shrinks m.
Proof.
  intros Hm st a st' E. assert (Hr := Hm (opens (rest st)) st st (conj eq_refl (le_n _))). rewrite E in Hr. simpl in Hr.
  destruct Hr as [_ [_ Hr]]. auto.
Qed.

Ltac shrinks L := eapply rp_shrinks; intros b; eapply L;
  try (intros; exact I); try apply (few_lex false); try apply (few_lex true); try apply le_n; try constructor.

Lemma get_sh : shrinks get.
Proof. eapply rp_shrinks. intros b. apply (few_lex false). Qed.
Lemma peek_sh : shrinks peek.
Proof. eapply rp_shrinks. intros b. apply (few_lex true). Qed.
Lemma pos_sh : shrinks pos.
Proof. intros st a st' E. inversion E. auto. Qed.
Lemma args_sh n : shrinks (parse_args n).
Proof. shrinks @parse_args_rp. Qed.
Lemma requirements_sh n acc : shrinks (parse_requirements n acc).
Proof. shrinks @parse_requirements_rp. Qed.
Lemma predicates_sh n : shrinks (parse_predicates n n []).
Proof. shrinks @parse_predicates_rp. Qed.
Lemma functions_sh n : shrinks (parse_functions n n []).
Proof. shrinks @parse_functions_rp. Qed.
Lemma task_sh n : shrinks (parse_task n).
Proof. shrinks @parse_task_rp. Qed.
Lemma htn_sh n : shrinks (parse_htn n).
Proof. shrinks @parse_htn_rp. Qed.
Lemma initial_sh n : shrinks (parse_initial_tn n).
Proof. shrinks @parse_initial_tn_rp. Qed.
Lemma type_sh : shrinks parse_document_type.
Proof. shrinks @parse_document_type_rp. Qed.

Lemma paren_opens st st' : get st = POk (TPunct LParen) st' -> opens (rest st') < opens (rest st).
Proof.
  unfold get. destruct (get_token st) as [o s] eqn:E. destruct o; simpl; try discriminate. intros Eq. injection Eq as -> ->.
  apply get_token_spec in E as (g & s1 & Er & Hg & Hs & _). rewrite Er, opens_app.
  remember (TPunct LParen) as t. remember (rest st') as r. clear Er.
  destruct Hs; subst; try discriminate; simpl; try lia.
  all: match goal with Hi : In _ (colon_text (TPunct LParen)) |- _ => destruct Hi | Hi : In _ (bare_text (TPunct LParen)) |- _ => destruct Hi end.
Qed.

(** No overflow, and at most [b] opening parentheses ahead afterwards. *)
Definition sw {A} (s : SP A) (b : nat) (st : lstate) : Prop :=
  match s st with Overflow => False | Fits (POk a st') => opens (rest st') <= b | _ => True end.

Lemma sw_lift {A} (m : P A) b st : shrinks m -> opens (rest st) <= b -> sw (lift m) b st.
Proof. intros Hm Hb. unfold sw, lift. destruct (m st) eqn:E; auto. apply Hm in E. lia. Qed.
Lemma sw_bind_lift {A B} (m : P A) (k : A -> SP B) b st : shrinks m ->
  (forall a st', m st = POk a st' -> opens (rest st') <= opens (rest st) -> sw (k a) b st') -> sw (sbind (lift m) k) b st.
Proof. intros Hm Hk. unfold sw, sbind, lift. destruct (m st) as [a st'| | |] eqn:E; auto. apply (Hk a st'); auto. apply (Hm _ _ _ E). Qed.
Lemma sw_bind {A B} (s : SP A) (k : A -> SP B) b1 b st : sw s b1 st ->
  (forall a st', opens (rest st') <= b1 -> sw (k a) b st') -> sw (sbind s k) b st.
Proof.
  intros Hm Hk. unfold sw, sbind in *. destruct (s st) as [[a st'| | |]|]; auto. apply (Hk a st'); auto.
Qed.
Lemma sw_syn {A} x t b st : sw (lift (@syn A x t)) b st.
Proof. exact I. Qed.
Lemma sw_panic {A} p b st : sw (lift (@ppanic A p)) b st.
Proof. exact I. Qed.
Lemma sw_ret {A} (a : A) b st : opens (rest st) <= b -> sw (sret a) b st.
Proof. auto. Qed.
Lemma sw_weak {A} (s : SP A) b b' st : sw s b st -> b <= b' -> sw s b' st.
Proof. unfold sw. destruct (s st) as [[a st'| | |]|]; auto. lia. Qed.

Ltac sw :=
  repeat match goal with
  | |- sw (sbind (lift _) _) _ _ =>
      apply sw_bind_lift; [first [apply get_sh|apply peek_sh|apply pos_sh|apply args_sh|apply task_sh|apply htn_sh|apply initial_sh
        |apply predicates_sh|apply functions_sh|apply requirements_sh|apply type_sh]|intros ? ? ? ?]
  | |- sw (lift (syn _ _)) _ _ => apply sw_syn
  | |- sw (lift (ppanic _)) _ _ => apply sw_panic
  | |- sw (sret _) _ _ => apply sw_ret; lia
  | |- sw (match ?x with _ => _ end) _ _ => is_var x; destruct x
  | E : get _ = POk (TPunct LParen) _ |- _ => apply paren_opens in E
  end.

Lemma formula_sw fuel : forall n,
  (forall d st, opens (rest st) < d -> sw (parse_formula_in d fuel n) (opens (rest st)) st)
  /\ (forall d acc st, opens (rest st) < d -> sw (connective_in d fuel n acc) (opens (rest st)) st)
  /\ (forall d acc st, opens (rest st) < d -> sw (branches_in d fuel n acc) (opens (rest st)) st).
Proof.
  induction n as [|n (IF & IC & IB)]; repeat split; intros;
    cbn [parse_formula_in connective_in branches_in]; try exact I.
  - destruct d as [|d]; [lia|]. sw.
    all: eapply sw_bind; [first [apply IC|apply IB|apply IF]; lia|]; intros; sw.
  - eapply sw_bind; [apply IF; lia|]. intros f st' Hst. destruct f; sw; (eapply sw_weak; [apply IC; lia|lia]).
  - sw. eapply sw_bind; [apply IF; lia|]. intros f st2 Hst. destruct f; sw; (eapply sw_weak; [apply IB; lia|lia]).
Qed.
Lemma parse_action_sw d n st : opens (rest st) < d -> sw (parse_action_in d n) (opens (rest st)) st.
Proof.
  intros Hd. unfold parse_action_in. sw.
  eapply (sw_bind _ _ (opens (rest st))).
  - sw. eapply sw_bind; [apply formula_sw; lia|]. intros; sw.
  - intros; sw. eapply (sw_bind _ _ (opens (rest st))).
    + sw. eapply sw_bind; [apply formula_sw; lia|]. intros; sw.
    + intros; sw.
Qed.
Lemma parse_method_sw d n st : opens (rest st) < d -> sw (parse_method_in d n) (opens (rest st)) st.
Proof.
  intros Hd. unfold parse_method_in. cbv zeta. sw. eapply sw_bind; [apply formula_sw; lia|]. intros; sw.
Qed.
Lemma parse_domain_sw d fuel : forall n a st, opens (rest st) < d -> sw (parse_domain_in d fuel n a) (opens (rest st)) st.
Proof.
  induction n as [|n IH]; intros a st Hd; cbn [parse_domain_in]; [exact I|]. sw.
  all: try (eapply sw_weak; [apply IH; lia|lia]).
  all: eapply sw_bind; [first [apply parse_method_sw|apply parse_action_sw]; lia|]; intros; eapply sw_weak; [apply IH; lia|lia].
Qed.
Lemma parse_problem_sw d fuel : forall n a st, opens (rest st) < d -> sw (parse_problem_in d fuel n a) (opens (rest st)) st.
Proof.
  induction n as [|n IH]; intros a st Hd; cbn [parse_problem_in]; [exact I|]. sw.
  all: try (destruct (rebuild_objects _); sw).
  all: try (eapply sw_weak; [apply IH; lia|lia]).
  eapply sw_bind; [apply formula_sw; lia|]; intros; eapply sw_weak; [apply IH; lia|lia].
Qed.
Lemma parse_in_bound d n program : opens program < d -> parse_in d n program <> Overflow.
Proof.
  intros Hd. assert (sw (parse_doc_in d n) (opens program) (lex_new program)) as Hs.
  { change program with (rest (lex_new program)) in Hd |- * at 1. unfold parse_doc_in. sw.
    all: eapply sw_bind; [first [apply parse_domain_sw|apply parse_problem_sw]; lia|]; intros; sw. }
  unfold sw in Hs. unfold parse_in. destruct (parse_doc_in d n (lex_new program)) as [[| | |]|]; try discriminate. destruct Hs.
Qed.

(** ** The recursive checks *)
Definition low (f : formula) : Prop := forall k, nested f k -> height f < 2 * k.
Definition low_in (f : formula) : Prop := low f /\ forall w g, f = FWeighted w g -> low g.

Lemma low_list fs ks : Forall low_in fs -> Forall2 nested fs ks -> list_max (map height fs) <= 2 * list_max ks.
Proof.
  intros Hf H2. induction H2 as [|f k fs ks Hk _ IH]; simpl; [lia|]. inversion Hf as [|x l [Hh _] Hr]; subst.
  specialize (Hh _ Hk). specialize (IH Hr). lia.
Qed.
Lemma low_branches bs ks : Forall low_in (map branch bs) -> Forall2 (fun b k => nested (snd b) k) bs ks ->
  list_max (map height (map branch bs)) <= 2 * list_max ks.
Proof.
  intros Hf H2. induction H2 as [|f k fs ks Hk _ IH]; cbn [map list_max fold_right] in *; [lia|]. inversion Hf as [|x l [_ Hh] Hr]; subst.
  specialize (Hh _ _ eq_refl _ Hk). specialize (IH Hr). cbn [height branch]. unfold list_max in IH. lia.
Qed.
Lemma low_all : forall f, low_in f.
Proof.
  induction f using formula_nested_ind; (split; [intros k Hk; inversion Hk; subst; simpl height; try lia|try (intros; discriminate)]).
  all: try match goal with
    | IH : low_in ?f, Hn : nested ?f _ |- _ => apply (proj1 IH) in Hn; lia
    | Hf : Forall _ (map _ _), H2 : Forall2 _ _ ?ks |- _ => assert (Hl := low_branches _ _ Hf H2); unfold branch in Hl; lia
    | Hf : Forall _ ?fs, H2 : Forall2 nested ?fs ?ks |- _ =>
        assert (Hl := low_list _ _ Hf H2); change (list_max (1 :: ks)) with (Nat.max 1 (list_max ks)); lia
    end.
  - intros v g E. injection E as <- <-. apply (proj1 IHf).
Qed.
Lemma nested_height f k : nested f k -> height f < 2 * k.
Proof. apply low_all. Qed.
Lemma nested_pos f k : nested f k -> 0 < k.
Proof. intros Hk. apply nested_height in Hk. destruct k; lia. Qed.

Lemma height_pos f : 0 < height f.
Proof. destruct f; simpl; lia. Qed.
Lemma heights_le fs d : list_max (map height fs) <= d <-> Forall (fun f => height f <= d) fs.
Proof. rewrite list_max_le, Forall_map. tauto. Qed.

(** On enough stack the checks do what they do otherwise. *)
Lemma check_all_for preds fs :
  (fix check_all (l : list formula) : outcome unit :=
     match l with [] => Ok tt | g :: l' => check_predicate_declarations preds g ;;; check_all l' end)%outcome fs
  = for_each (check_predicate_declarations preds) fs.
Proof. induction fs as [|g fs IH]; simpl; auto. rewrite IH. reflexivity. Qed.
Lemma check_each_fits {A} (c : A -> stacked (outcome unit)) (check : A -> outcome unit) l :
  Forall (fun x => c x = Fits (check x)) l -> check_each c l = Fits (for_each check l).
Proof.
  induction 1 as [|x l E F IH]; simpl; auto. rewrite E. destruct (check x) as [[]| | |]; simpl; auto.
Qed.

Lemma check_fits preds : forall d f, height f <= d ->
  check_predicates_in d preds f = Fits (check_predicate_declarations preds f).
Proof.
  induction d as [|d IH]; intros f Hh; [pose proof (height_pos f); lia|].
  destruct f; cbn [check_predicates_in check_predicate_declarations height] in *; auto;
    try (apply IH; lia);
    rewrite check_all_for; apply check_each_fits;
    match goal with |- Forall _ ?l => assert (list_max (map height l) <= d) as Hl by lia end; apply heights_le in Hl;
    (eapply Forall_impl; [|exact Hl]); intros g Hg; apply IH; exact Hg.
Qed.

Lemma check_each_ag {A} (c : A -> stacked (outcome unit)) (check : A -> outcome unit) :
  (forall x r, c x = Fits r -> check x = r) -> forall l r, check_each c l = Fits r -> for_each check l = r.
Proof.
  intros Hc. induction l as [|x l IH]; simpl; intros r E; [congruence|].
  destruct (c x) as [y|] eqn:Ex; [|discriminate]. apply Hc in Ex. rewrite Ex.
  destruct y as [[]| | |]; simpl; auto; congruence.
Qed.

Lemma check_ag preds : forall d f r, check_predicates_in d preds f = Fits r -> check_predicate_declarations preds f = r.
Proof.
  induction d as [|d IH]; intros f r E; [discriminate|].
  destruct f; cbn [check_predicates_in check_predicate_declarations] in *; try congruence; auto;
    rewrite check_all_for; eapply check_each_ag; eauto.
Qed.

Lemma check_each_over {A} (c : A -> stacked (outcome unit)) (check : A -> outcome unit) (h : A -> nat) d l :
  (forall x, In x l -> check x = Ok tt -> c x = if d <? h x then Overflow else Fits (Ok tt)) ->
  for_each check l = Ok tt -> check_each c l = if d <? list_max (map h l) then Overflow else Fits (Ok tt).
Proof.
  intros Hc. induction l as [|x l IH]; [reflexivity|].
  cbn [for_each]. intros E. destruct (check x) as [[]| | |] eqn:Ex; try discriminate. simpl in E.
  cbn [check_each map list_max fold_right]. rewrite Hc by (simpl; auto).
  rewrite IH by (auto; intros; apply Hc; simpl; auto). fold (list_max (map h l)).
  destruct (Nat.ltb_spec d (h x)), (Nat.ltb_spec d (list_max (map h l))),
    (Nat.ltb_spec d (Nat.max (h x) (list_max (map h l)))); auto; lia.
Qed.

Lemma check_exact preds : forall d f, check_predicate_declarations preds f = Ok tt ->
  check_predicates_in d preds f = if d <? height f then Overflow else Fits (Ok tt).
Proof.
  induction d as [|d IH]; intros f E.
  - pose proof (height_pos f). destruct (Nat.ltb_spec 0 (height f)); [auto|lia].
  - destruct f; cbn [check_predicates_in check_predicate_declarations height] in *; try discriminate;
      try (rewrite E; reflexivity); try reflexivity;
      try (match goal with |- context[S d <? S ?x] => change (S d <? S x) with (d <? x) end; auto; fail);
      rewrite check_all_for in E; match goal with |- context[S d <? S ?x] => change (S d <? S x) with (d <? x) end;
      eapply check_each_over; eauto.
Qed.

Lemma gather_fits {A B} (f : A -> stacked (list B)) g l :
  Forall (fun x => f x = Fits (g x)) l -> gather f l = Fits (flat_map g l).
Proof. induction 1 as [|x l E F IH]; simpl; auto. rewrite E, IH. reflexivity. Qed.

Lemma preds_fits : forall d f, height f <= d -> prop_preds_in d f = Fits (prop_preds f).
Proof.
  assert (forall d l, (forall f, height f <= d -> prop_preds_in d f = Fits (prop_preds f)) ->
    list_max (map height l) <= d -> gather (prop_preds_in d) l = Fits (flat_map prop_preds l)) as Hg.
  { intros d l Hf Hl. apply gather_fits. apply heights_le in Hl. eapply Forall_impl; [|exact Hl]. auto. }
  induction d as [|d IH]; intros f Hh; [pose proof (height_pos f); lia|].
  destruct f; cbn [prop_preds_in prop_preds height] in *; auto; try (apply IH; lia); try (apply Hg; auto; lia).
  rewrite !Hg by (auto; lia). reflexivity.
Qed.

Lemma gather_ag {A B} (f : A -> stacked (list B)) g :
  (forall x r, f x = Fits r -> g x = r) -> forall l r, gather f l = Fits r -> flat_map g l = r.
Proof.
  intros Hf. induction l as [|x l IH]; simpl; intros r E; [congruence|].
  destruct (f x) as [u|] eqn:Ex; [|discriminate]. destruct (gather f l) as [v|]; [|discriminate].
  rewrite (Hf _ _ Ex), (IH v) by auto. congruence.
Qed.

Lemma preds_ag : forall d f r, prop_preds_in d f = Fits r -> prop_preds f = r.
Proof.
  induction d as [|d IH]; intros f r E; [discriminate|].
  destruct f as [| | |fs|fs|fs| | |ps qs| |]; cbn [prop_preds_in prop_preds] in *; try congruence; auto;
    try (eapply gather_ag; eauto; fail).
  destruct (gather (prop_preds_in d) ps) as [u|] eqn:E1; [|discriminate].
  destruct (gather (prop_preds_in d) qs) as [v|] eqn:E2; [|discriminate].
  rewrite (gather_ag _ _ IH _ _ E1), (gather_ag _ _ IH _ _ E2). congruence.
Qed.

(** ** Comments *)
Lemma lex_at_never p s ln : fst (lex_at p s ln) <> LFuel.
Proof.
  unfold lex_at. destruct s as [|c s]; [discriminate|].
  repeat (match goal with |- fst (if ?b then _ else _) <> _ => destruct b end); try discriminate.
  - destruct (ordering_type _ _ _); discriminate.
  - destruct (peek_lexeme s ln); discriminate.
  - destruct (peek_lexeme s ln); try discriminate. destruct (str_assoc lexeme colon_words); discriminate.
  - destruct (peek_number _ _); discriminate.
  - destruct (peek_lexeme (String c s) ln) eqn:E; try discriminate.
    destruct (str_assoc lexeme bare_words); [discriminate|].
    destruct (str_assoc lexeme operators); [discriminate|].
    destruct (ident_chars lexeme); discriminate.
Qed.

Lemma lex_fuel_fits p : forall d st, fst (lex_fuel d p st) <> LFuel ->
  forall d', d <= d' -> lex_fuel d' p st = lex_fuel d p st.
Proof.
  induction d as [|d IH]; intros st E d' Hd; [simpl in E; congruence|].
  destruct d' as [|d']; [lia|]. rewrite !lex_fuel_S in *.
  destruct (skip_whitespaces (rest st) (line st)) as [s ln]. destruct s as [|c s']; auto.
  destruct (Ascii.eqb c ";"); auto. destruct (skip_comment _); auto. apply IH; auto; lia.
Qed.

Lemma lex_fuel_lex d p st : fst (lex_fuel d p st) <> LFuel -> lex_fuel d p st = lex p st.
Proof.
  intros E. unfold lex. destruct (Nat.le_ge_cases d (S (String.length (rest st)))) as [Hd|Hd].
  - symmetry. apply lex_fuel_fits; auto.
  - apply lex_fuel_fits; auto. apply lex_no_fuel.
Qed.

Lemma comments_split k g : Comments k g ->
  exists w g', g = (w ++ g')%string /\ str_all ws w
    /\ ((k = 0 /\ g' = ""%string)
        \/ exists j text h, k = S j /\ g' = String ";" (text ++ String "010" h) /\ ~ str_in "010" text
             /\ Comments j (String "010" h)).
Proof.
  induction 1 as [|c k g Hc Hg (w & g' & -> & Hw & IH)|text k g Ht Hg _].
  - exists ""%string, ""%string. simpl. auto.
  - exists (String c w), g'. simpl. auto.
  - exists ""%string. eexists. repeat split; simpl; auto. right. exists k, text, g. repeat split; auto.
    constructor; auto. unfold ws. auto.
Qed.

Lemma comment_frames p s : gap_stop s -> forall d k g ln, Comments k g ->
  (fst (lex_fuel d p (mkL (g ++ s) ln)) = LFuel <-> d <= k).
Proof.
  intros Hs. induction d as [|d IH]; intros k g ln Hg; [simpl; split; auto; lia|].
  rewrite lex_fuel_S. cbn [rest line].
  destruct (comments_split _ _ Hg) as (w & g' & -> & Hw & Hk). rewrite app_assoc_s, skip_ws_app by auto.
  destruct Hk as [(-> & ->)|(j & text & h & -> & -> & Ht & Hh)].
  - simpl. rewrite skip_ws_stop. 
    + destruct Hs as [Hs|(t & -> & Hn)].
      * split; [|lia]. destruct s as [|c s']; [simpl; discriminate|].
        destruct (Ascii.eqb_spec c ";") as [->|Hc]; [simpl in Hs; tauto|].
        intros E. exfalso. revert E. apply lex_at_never.
      * split; [|lia]. simpl. assert (skip_comment (if p then String ";" t else t) = None) as ->; [|discriminate].
        apply skip_comment_none. destruct p; auto. simpl. intros [E|E]; [discriminate|auto].
    + destruct Hs as [Hs|(t & -> & _)]; [destruct s; simpl in *; tauto|]. intros E. eapply ws_not_semicolon; eauto.
  - cbn [String.append]. rewrite skip_ws_stop by (intros E; eapply ws_not_semicolon; eauto). cbn [Ascii.eqb Bool.eqb].
    assert (skip_comment (if p then String ";" ((text ++ String "010" h) ++ s) else ((text ++ String "010" h) ++ s))
      = Some (String "010" (h ++ s))) as ->.
    { rewrite app_assoc_s. destruct p; simpl; [|apply skip_comment_app; auto].
      apply (skip_comment_app text (h ++ s)); auto. }
    change (String "010" (h ++ s)) with (String "010" h ++ s)%string. rewrite (IH j (String "010" h)) by auto. lia.
Qed.
End Proofs.
