(** The parser fails at the first token that cannot continue any document:
    what was read before a failure can be completed to an accepted text, and
    what follows the token it failed at plays no role.  One pass over the
    parser; the second run has slack in its fuel. *)
From Coq Require Import String Ascii NArith ZArith Bool List Lia PeanoNat.
From Verif Require Import Base Token Lexer Errors Ast Parser StrFacts SpecLex LexProofs LexProofs2 LexProofs3
  ParserStream GrammarSound SpecExpect.
Import ListNotations.
Open Scope list_scope.
Open Scope nat_scope.

Section Prefix.
Context `{Unicode}.

Definition next (st : lstate) (t : token) : Prop := exists s, get_token st = (LTok t, s).
Definition failure := (parsing_error + panic_site)%type.
Definition raise {A} (f : failure) : presult A := match f with inl e => PErr e | inr p => PPanic p end.

(** What a failure says about the item it stands on. *)
Definition blames (f : failure) (o : lex_out) (l : N) : Prop :=
  match f with
  | inl (ELex e) => o = LErr e
  | inl (ESyn e) => exists t, o = LTok t /\ (se_found e = t \/ se_found e = peeked t) /\ se_line e = l
  | inl (ESem _) => False
  | inr p => o = LPanic p \/ (p = PanicProblemToken /\ exists t, o = LTok t)
  end.
Definition noeof (ts : list (token * N)) : Prop := Forall (fun x => fst x <> TEOF) ts.
Definition item (st : lstate) : lex_out * N := (fst (get_token st), line (snd (get_token st))).

(** Delivering [toks] makes [M] succeed. *)
Definition Acc {A} (toks : list token) (M : P A) (Pc : A -> Prop) : Prop :=
  Forall printable toks /\ forall st ts st1, map fst ts = toks -> Reads st ts st1 -> exists a, Pc a /\ M st = POk a st1.

(** [g]: the next token, if it was peeked at. *)
Definition Vok {A} (g : option token) (M : P A) (Q : A -> list (token * N) -> option token -> Prop) st a st1 : Prop :=
  exists ts g1 st0, Reads st ts st0 /\ same_next st0 st1 /\ (g1 = None -> st1 = st0)
    /\ (forall t, g1 = Some t -> next st0 t) /\ (g <> None -> ts = [] -> g1 = g) /\ (noeof ts \/ g1 = Some TEOF) /\ Q a ts g1
    /\ forall st' st0', (g = None -> line st' = line st) -> Reads st' ts st0' -> (forall t, g1 = Some t -> next st0' t) ->
         exists st1', M st' = POk a st1' /\ same_next st0' st1' /\ (g1 = None -> st1' = st0').
(** After [ts], the item [it] makes [M] fail with [f]. *)
Definition Fin {A} (g : option token) (M : P A) st (ts : list (token * N)) (it : lex_out * N) (f : failure) : Prop :=
  forall st' st0', (g = None -> line st' = line st) -> Reads st' ts st0' -> item st0' = it -> M st' = raise f.
(** After [ts], the tokens [toks] make [M] succeed. *)
Definition Compl {A} (g : option token) (M : P A) (Pc : A -> Prop) st (ts : list (token * N)) (toks : list token) : Prop :=
  Forall printable toks /\ forall st' st0' us st1', (g = None -> line st' = line st) -> Reads st' ts st0' ->
    map fst us = toks -> Reads st0' us st1' -> exists a, Pc a /\ M st' = POk a st1'.
(** What the failure says it expected can stand there, and nothing else if it
    claims to name everything. *)
Definition expects (f : failure) : option string := match f with inl (ESyn e) => Some (se_expected e) | _ => None end.
Definition Says {A} (g : option token) (M : P A) (Pc : A -> Prop) st (ts : list (token * N)) (xo : option string) : Prop :=
  match xo with
  | None => True
  | Some x => exists l full, phrase x l full
    /\ (forall u, named l u -> printable u -> exists toks, Compl g M Pc st ts (u :: toks))
    /\ (full = All -> forall u k, ~ named l u -> exists f, blames f (LTok u) k /\ Fin g M st ts (LTok u, k) f)
  end.
Definition Tells {A} (g : option token) (M : P A) (Pc : A -> Prop) st ts it (f : failure) : Prop :=
  Fin g M st ts it f /\ (exists toks, Compl g M Pc st ts toks) /\ Says g M Pc st ts (expects f).
Definition Vfail {A} (g : option token) (M : P A) (Pc : A -> Prop) st (f : failure) : Prop :=
  exists ts st0, Reads st ts st0 /\ (g <> None -> ts <> []) /\ noeof ts /\ blames f (fst (item st0)) (snd (item st0))
    /\ Tells g M Pc st ts (item st0) f.
Definition V {A} (g : option token) (m M : P A) (Q : A -> list (token * N) -> option token -> Prop) (Pc : A -> Prop) : Prop :=
  forall st, (forall t, g = Some t -> next st t) ->
  match m st with
  | POk a st1 => Vok g M Q st a st1
  | PErr e => Vfail g M Pc st (inl e)
  | PPanic p => Vfail g M Pc st (inr p)
  | PFuel => True
  end.

Lemma tells_lift {A B} tail (g g' : option token) (M : P A) (M' : P B) (Pc : A -> Prop) (Pc' : B -> Prop) st st' ts ts' it f :
  (forall it f, Fin g M st ts it f -> Fin g' M' st' ts' it f) ->
  (forall toks, Compl g M Pc st ts toks -> Compl g' M' Pc' st' ts' (toks ++ tail)) ->
  Tells g M Pc st ts it f -> Tells g' M' Pc' st' ts' it f.
Proof.
  intros HF HC (H1 & (toks & H2) & H3). split; [auto|]. split; [eauto|]. unfold Says in *.
  destruct (expects f) as [x|]; auto. destruct H3 as (l & full & Hp & Hn & Ha). exists l, full. split; auto. split.
  - intros u Hu Hq. destruct (Hn u Hu Hq) as (us & Hc). exists (us ++ tail). exact (HC (u :: us) Hc).
  - intros E u k Hu. destruct (Ha E u k Hu) as (f' & Hb & Hf). eauto.
Qed.
Lemma tells_same {A} (g g' : option token) (M M' : P A) (Pc Pc' : A -> Prop) st st' ts ts' it f :
  (forall it f, Fin g M st ts it f -> Fin g' M' st' ts' it f) ->
  (forall toks, Compl g M Pc st ts toks -> Compl g' M' Pc' st' ts' toks) ->
  Tells g M Pc st ts it f -> Tells g' M' Pc' st' ts' it f.
Proof. intros HF HC. apply (tells_lift []); auto. intros. rewrite app_nil_r. auto. Qed.

Lemma peek_of st t st1 : get_token st = (LTok t, st1) ->
  exists stp, lookahead st = (LTok (peeked t), stp) /\ same_next stp st /\ get_token stp = (LTok t, st1) /\ line stp = line st1.
Proof.
  intros E. assert (E' := peek_is_next st). rewrite E in E'. simpl in E'.
  destruct (lookahead st) as [o stp] eqn:El. simpl in E'. subst o. exists stp.
  assert (forall p, lex p stp = lex p st) as Hs by (eapply peek_then; [exact El|discriminate]).
  split; auto. split; [exact Hs|]. split; [unfold get_token; rewrite Hs; exact E|]. eapply peek_line; eauto.
Qed.
Lemma reads_cons_inv st t l ts st2 : Reads st ((t, l) :: ts) st2 ->
  exists st1, get_token st = (LTok t, st1) /\ line st1 = l /\ Reads st1 ts st2.
Proof. intros Hr. inversion Hr; subst. eauto. Qed.
Lemma reads_nil_inv st st' : Reads st [] st' -> st' = st.
Proof. intros Hr. inversion Hr; auto. Qed.
Lemma reads_app_inv ts us st st2 : Reads st (ts ++ us) st2 -> exists st1, Reads st ts st1 /\ Reads st1 us st2.
Proof.
  revert st. induction ts as [|[t l] ts IH]; intros st Hr; simpl in Hr.
  - exists st. split; auto. constructor.
  - apply reads_cons_inv in Hr as (s & E & <- & Hr). apply IH in Hr as (st1 & H1 & H2). exists st1. split; auto. econstructor; eauto.
Qed.
Lemma reads_shift st st' ts st0 : same_next st st' -> Reads st ts st0 -> ts <> [] -> Reads st' ts st0.
Proof.
  intros Hs Hr Ht. destruct Hr; [congruence|]. econstructor; eauto. unfold get_token in *. rewrite <- (Hs false). auto.
Qed.
Lemma next_shift st st' t : same_next st st' -> next st t -> next st' t.
Proof. intros Hs (s & E). exists s. unfold get_token in *. rewrite <- (Hs false). auto. Qed.
Lemma reads_lines st st' ts st0 st0' : Reads st ts st0 -> Reads st' ts st0' -> line st = line st' -> line st0 = line st0'.
Proof.
  intros Hr. revert st'. induction Hr as [st|st t st1 ts st2 E Hr IH]; intros st' Hr' El.
  - apply reads_nil_inv in Hr'. subst; auto.
  - apply reads_cons_inv in Hr' as (s & E' & E1 & Hr'). apply (IH s); auto.
Qed.
Lemma reads_lines' st st' ts st0 st0' : ts <> [] -> Reads st ts st0 -> Reads st' ts st0' -> line st0 = line st0'.
Proof.
  intros Hn Hr Hr'. destruct ts as [|[t l] ts]; [congruence|].
  apply reads_cons_inv in Hr as (s & _ & E & Hr). apply reads_cons_inv in Hr' as (s' & _ & E' & Hr').
  eapply reads_lines; eauto. congruence.
Qed.
Lemma same_next_sym a b : same_next a b -> same_next b a.
Proof. intros E p. symmetry. apply E. Qed.
Lemma same_next_trans a b c : same_next a b -> same_next b c -> same_next a c.
Proof. intros E F p. rewrite (E p). apply F. Qed.
Lemma same_next_refl a : same_next a a.
Proof. intros p; auto. Qed.
Lemma item_shift st st' : same_next st st' -> item st = item st'.
Proof. intros Hs. unfold item, get_token. rewrite (Hs false). auto. Qed.

(** ** Completions *)
Lemma acc_ret {A} (a : A) (Pc : A -> Prop) : Pc a -> Acc [] (ret a) Pc.
Proof. intros Ha. split; [constructor|]. intros st ts st1 E Hr. destruct ts; [|discriminate]. apply reads_nil_inv in Hr. subst. exists a. auto. Qed.
Lemma acc_get {A} t toks (K : token -> P A) Pc : printable t -> Acc toks (K t) Pc -> Acc (t :: toks) (bind get K) Pc.
Proof.
  intros Hp [Hq Hk]. split; [constructor; auto|]. intros st [|[u l] ts] st1 E Hr; [discriminate|]. cbn [map fst] in E. injection E as -> E.
  apply reads_cons_inv in Hr as (s & Eg & _ & Hr). unfold bind, get. rewrite Eg. cbn [of_lex]. eauto.
Qed.
Lemma acc_peek {A} t toks (K : token -> P A) Pc : Acc (t :: toks) (K (peeked t)) Pc -> Acc (t :: toks) (bind peek K) Pc.
Proof.
  intros [Hq Hk]. split; [auto|]. intros st [|[u l] ts] st1 E Hr; [discriminate|]. cbn [map fst] in E. injection E as -> E.
  pose proof Hr as Hr0. apply reads_cons_inv in Hr as (s & Eg & El & Hr).
  destruct (peek_of _ _ _ Eg) as (stp & Ep & Hs & Eg' & _). unfold bind, peek. rewrite Ep. cbn [of_lex].
  apply (Hk stp ((t, l) :: ts)); [simpl; congruence|]. apply (reads_shift st); auto using same_next_sym. discriminate.
Qed.
Lemma acc_pos {A} toks (K : N -> P A) Pc : (forall p, Acc toks (K p) Pc) -> Acc toks (bind pos K) Pc.
Proof. intros Hk. split; [apply (Hk 0%N)|]. intros st ts st1 E Hr. unfold bind, pos. eapply Hk; eauto. Qed.
Lemma acc_bind {A B} toks toks' (M : P A) (K : A -> P B) P1 Pc :
  Acc toks M P1 -> Forall printable toks' -> (forall a, P1 a -> Acc toks' (K a) Pc) -> Acc (toks ++ toks') (bind M K) Pc.
Proof.
  intros [Hp Hm] Hq Hk. split; [apply Forall_app; auto|]. intros st ts st1 E Hr.
  assert (ts = firstn (length toks) ts ++ skipn (length toks) ts) as Es by (symmetry; apply firstn_skipn).
  assert (map fst (firstn (length toks) ts) = toks) as E1.
  { rewrite <- firstn_map, E. rewrite firstn_app, Nat.sub_diag, firstn_all, firstn_O. apply app_nil_r. }
  assert (map fst (skipn (length toks) ts) = toks') as E2.
  { rewrite <- skipn_map, E. rewrite skipn_app, Nat.sub_diag, skipn_all. auto. }
  rewrite Es in Hr. apply reads_app_inv in Hr as (s & Hr1 & Hr2).
  destruct (Hm _ _ _ E1 Hr1) as (a & Ha & Ea). destruct (proj2 (Hk a Ha) _ _ _ E2 Hr2) as (b & Hb & Eb).
  exists b. split; auto. unfold bind. rewrite Ea. auto.
Qed.
Lemma acc_post {A} toks (M : P A) (P1 P2 : A -> Prop) : Acc toks M P1 -> (forall a, P1 a -> P2 a) -> Acc toks M P2.
Proof. intros [Hq Hm] Hp. split; [auto|]. intros st ts st1 E Hr. destruct (Hm _ _ _ E Hr) as (a & Ha & Ea). eauto. Qed.

(** ** Rules *)
Lemma v_fuel {A} (g : option token) (M : P A) (Q : A -> list (token * N) -> option token -> Prop) (Pc : A -> Prop) : V g pfuel M Q Pc.
Proof. intros st _. exact I. Qed.
Lemma v_ret {A} g (a : A) (Q : A -> list (token * N) -> option token -> Prop) Pc : Q a [] g -> V g (ret a) (ret a) Q Pc.
Proof.
  intros Ha st Hg. simpl. exists [], g, st. split; [constructor|]. split; [apply same_next_refl|].
  split; auto. split; auto. split; auto. split; [left; constructor|]. split; auto. intros st' st0' _ Hr _. apply reads_nil_inv in Hr. subst.
  exists st'. split; [reflexivity|]. split; auto. apply same_next_refl.
Qed.
Lemma v_pos {A} (k K : N -> P A) Q Pc : (forall p, V None (k p) (K p) Q Pc) -> V None (bind pos k) (bind pos K) Q Pc.
Proof.
  intros Hk st Hg. unfold bind, pos. specialize (Hk (line st) st Hg).
  destruct (k (line st) st) as [a st1|e|p|]; auto.
  - destruct Hk as (ts & g1 & st0 & H1 & H2 & H3 & H4 & H5 & H5e & H6 & H7). exists ts, g1, st0. repeat (split; [assumption|]).
    intros st' st0' Hl. rewrite (Hl eq_refl). apply H7; auto.
  - destruct Hk as (ts & st0 & H1 & H2 & He0 & H3 & H4). exists ts, st0. repeat (split; [assumption|]). revert H4. apply tells_same.
    + intros it f Hf st' st0' Hl. rewrite (Hl eq_refl). apply Hf; auto.
    + intros toks [Hp Hc]. split; auto. intros st' st0' us st1' Hl. rewrite (Hl eq_refl). apply Hc; auto.
  - destruct Hk as (ts & st0 & H1 & H2 & He0 & H3 & H4). exists ts, st0. repeat (split; [assumption|]). revert H4. apply tells_same.
    + intros it f Hf st' st0' Hl. rewrite (Hl eq_refl). apply Hf; auto.
    + intros toks [Hp Hc]. split; auto. intros st' st0' us st1' Hl. rewrite (Hl eq_refl). apply Hc; auto.
Qed.
Lemma v_post {A} g (m M : P A) (Q Q' : A -> list (token * N) -> option token -> Prop) (Pc Pc' : A -> Prop) :
  V g m M Q Pc -> (forall a ts g1, Q a ts g1 -> Q' a ts g1) -> (forall a, Pc a -> Pc' a) -> V g m M Q' Pc'.
Proof.
  intros Hm HQ HP st Hg. specialize (Hm st Hg). destruct (m st) as [a st1|e|p|]; auto.
  - destruct Hm as (ts & g1 & st0 & H1 & H2 & H3 & H4 & H5 & H5e & H6 & H7). exists ts, g1, st0. repeat (split; [auto; fail|]). auto.
  - destruct Hm as (ts & st0 & H1 & H2 & He0 & H3 & H4). exists ts, st0. repeat (split; [assumption|]). revert H4. apply tells_same; auto.
    intros toks [Hp Hc]. split; auto. intros st' st0' us st1' X1 X2 X3 X4. destruct (Hc st' st0' us st1' X1 X2 X3 X4) as (a & Ha & Ea). eauto.
  - destruct Hm as (ts & st0 & H1 & H2 & He0 & H3 & H4). exists ts, st0. repeat (split; [assumption|]). revert H4. apply tells_same; auto.
    intros toks [Hp Hc]. split; auto. intros st' st0' us st1' X1 X2 X3 X4. destruct (Hc st' st0' us st1' X1 X2 X3 X4) as (a & Ha & Ea). eauto.
Qed.

(** An action that fails at once, blaming the token [t] just read and expecting [xo]. *)
Definition imm {A} (xo : option string) (t : token) (m M : P A) : Prop :=
  exists r : N -> failure, (forall st, m st = raise (r (line st))) /\ (forall st, M st = raise (r (line st)))
    /\ forall l, blames (r l) (LTok t) l /\ expects (r l) = xo.
Lemma imm_syn {A} x t : @imm A (Some x) t (syn x t) (syn x t).
Proof.
  exists (fun l => inl (ESyn (mkSynErr x t l))). split; [reflexivity|]. split; [reflexivity|]. intros l. simpl. eauto 6.
Qed.
Lemma imm_peeked {A} x t : @imm A (Some x) t (syn x (peeked t)) (syn x (peeked t)).
Proof.
  exists (fun l => inl (ESyn (mkSynErr x (peeked t) l))). split; [reflexivity|]. split; [reflexivity|]. intros l. simpl. eauto 6.
Qed.
Lemma imm_panic {A} t : @imm A None t (ppanic PanicProblemToken) (ppanic PanicProblemToken).
Proof. exists (fun l => inr PanicProblemToken). split; [reflexivity|]. split; [reflexivity|]. intros l. simpl. eauto 6. Qed.

(** The same, reading the token [t] that was peeked at. *)
Definition immn {A} (xo : option string) (t : token) (m M : P A) : Prop :=
  exists r : N -> failure, (forall st s, get_token st = (LTok t, s) -> m st = raise (r (line s)))
    /\ (forall st s, get_token st = (LTok t, s) -> M st = raise (r (line s)))
    /\ forall l, blames (r l) (LTok t) l /\ expects (r l) = xo.
Lemma immn_get {A} xo t (k K : token -> P A) : imm xo t (k t) (K t) -> immn xo t (bind get k) (bind get K).
Proof.
  intros (r & E1 & E2 & Hb). exists r. split; [|split; auto]; intros st s E; unfold bind, get; rewrite E; cbn [of_lex]; auto.
Qed.

(** The expectation [xo] of the failures of [M] on its first token is right;
    [bad u] means that [M] fails on [u]. *)
Definition told {A} (xo : option string) (M : P A) (Pc : A -> Prop) (bad : token -> Prop) : Prop :=
  match xo with
  | None => True
  | Some x => exists l full, phrase x l full
    /\ (forall u, named l u -> printable u -> exists toks, Acc (u :: toks) M Pc)
    /\ (full = All -> forall u, ~ named l u -> bad u)
  end.
(** [M] fails at once on the token [t]. *)
Definition hits {A} (M : P A) (t : token) (r : N -> failure) : Prop :=
  (forall st' s', get_token st' = (LTok t, s') -> M st' = raise (r (line s'))) /\ forall l, blames (r l) (LTok t) l.
Lemma hits_fin {A} (M : P A) t r st l : hits M t r -> Fin None M st [] (LTok t, l) (r l).
Proof.
  intros [Hf Hb] st' st0' _ Hr E1. apply reads_nil_inv in Hr. subst st0'. unfold item in E1. injection E1 as E1 E2.
  destruct (get_token st') as [o' s'] eqn:E'. simpl in E1, E2. subst o'. rewrite <- E2. exact (Hf _ _ E').
Qed.
Lemma acc_compl {A} (M : P A) Pc toks st : Acc toks M Pc -> Compl None M Pc st [] toks.
Proof.
  intros Ha. split; [apply Ha|]. intros st' st0' us st1' _ Hr Eu Hu. apply reads_nil_inv in Hr. subst st0'. eapply Ha; eauto.
Qed.
Lemma told_bad {A} xo (M : P A) Pc (b1 b2 : token -> Prop) : (forall u, b1 u -> b2 u) -> told xo M Pc b1 -> told xo M Pc b2.
Proof. intros Hb. unfold told. destruct xo as [x|]; auto. intros (l & full & H1 & H2 & H3). exists l, full. auto. Qed.
Lemma told_says {A} xo (M : P A) Pc st : told xo M Pc (fun u => exists r, hits M u r) -> Says None M Pc st [] xo.
Proof.
  unfold told, Says. destruct xo as [x|]; auto. intros (l & full & Hp & Hn & Ha). exists l, full. split; auto. split.
  - intros u Hu Hq. destruct (Hn u Hu Hq) as (toks & Hc). exists toks. apply acc_compl. auto.
  - intros E u k Hu. destruct (Ha E u Hu) as (r & Hr). exists (r k). split; [apply Hr|]. apply hits_fin. auto.
Qed.

Lemma get_fail {A} st (K : token -> P A) o s : get_token st = (o, s) ->
  match o with LTok t => True | LErr e => bind get K st = PErr (ELex e) | LPanic p => bind get K st = PPanic p
             | LFuel => bind get K st = PFuel end.
Proof. intros E. unfold bind, get. rewrite E. destruct o; auto. Qed.
Lemma peek_fail {A} st (K : token -> P A) o s : get_token st = (o, s) ->
  match o with LTok t => True | LErr e => bind peek K st = PErr (ELex e) | LPanic p => bind peek K st = PPanic p
             | LFuel => bind peek K st = PFuel end.
Proof.
  intros E. assert (E' := peek_is_next st). rewrite E in E'. simpl in E'. unfold bind, peek.
  destruct (lookahead st) as [o' s']. simpl in E'. subst. destruct o; auto.
Qed.
(** A failure of the tokenizer. *)
Lemma lex_fail {A} (M : P A) Pc toks st o s :
  get_token st = (o, s) -> Acc toks M Pc ->
  (forall st' s', get_token st' = (o, s') ->
     match o with LTok t => True | LErr e => M st' = PErr (ELex e) | LPanic p => M st' = PPanic p | LFuel => True end) ->
  match o with LErr e => Vfail None M Pc st (inl (ELex e)) | LPanic p => Vfail None M Pc st (inr p) | _ => True end.
Proof.
  intros E Ha Hf. assert (item st = (o, line s)) as Ei by (unfold item; rewrite E; auto).
  destruct o as [t|e|p|]; auto.
  - exists [], st. split; [constructor|]. split; [congruence|]. split; [constructor|]. rewrite Ei. split; [reflexivity|].
    split; [|split; [exists toks; apply acc_compl; auto|exact I]].
    intros st' st0' _ Hr E1. apply reads_nil_inv in Hr. subst st0'. unfold item in E1. injection E1 as E1 _.
    destruct (get_token st') as [o' s'] eqn:E'. simpl in E1. subst o'. exact (Hf _ _ E').
  - exists [], st. split; [constructor|]. split; [congruence|]. split; [constructor|]. rewrite Ei. split; [left; reflexivity|].
    split; [|split; [exists toks; apply acc_compl; auto|exact I]].
    intros st' st0' _ Hr E1. apply reads_nil_inv in Hr. subst st0'. unfold item in E1. injection E1 as E1 _.
    destruct (get_token st') as [o' s'] eqn:E'. simpl in E1. subst o'. exact (Hf _ _ E').
Qed.
(** One token read, then [k]. *)
Lemma v_read {A} (g : option token) t (k K : token -> P A) (Q : A -> list (token * N) -> option token -> Prop) (Pc : A -> Prop) st s :
  get_token st = (LTok t, s) -> t <> TEOF -> V None (k t) (K t) (fun a us g1 => forall l, Q a ((t, l) :: us) g1) Pc ->
  match bind get k st with
  | POk a st1 => Vok g (bind get K) Q st a st1
  | PErr e => Vfail g (bind get K) Pc st (inl e)
  | PPanic p => Vfail g (bind get K) Pc st (inr p)
  | PFuel => True
  end.
Proof.
  intros E Ht Hk. unfold bind at 1, get at 1. rewrite E. cbn [of_lex].
  specialize (Hk s ltac:(discriminate)).
  assert (forall M st' ts st0', M = K -> Reads st' ((t, line s) :: ts) st0' ->
    exists s', Reads s' ts st0' /\ line s' = line s /\ bind get M st' = M t s') as Hstep.
  { intros M st' ts st0' -> Hr. apply reads_cons_inv in Hr as (s' & E' & El & Hr). exists s'. split; auto. split; auto.
    unfold bind, get. rewrite E'. reflexivity. }
  destruct (k t s) as [a st1|e|p|]; auto.
  - destruct Hk as (ts & g1 & st0 & H1 & H2 & H3 & H4 & H5 & H5e & H6 & H7). exists ((t, line s) :: ts), g1, st0.
    split; [econstructor; eauto|]. repeat (split; [assumption|]). split; [discriminate|].
    split; [destruct H5e; [left; constructor; auto|auto]|]. split; auto.
    intros st' st0' _ Hr Hg. apply (Hstep K) in Hr as (s' & Hr & El & ->); auto.
  - destruct Hk as (ts & st0 & H1 & H2 & He0 & H3 & H4). exists ((t, line s) :: ts), st0.
    split; [econstructor; eauto|]. split; [discriminate|]. split; [constructor; auto|]. split; [assumption|]. revert H4. apply tells_same.
    + intros it f Hf st' st0' _ Hr Hi. apply (Hstep K) in Hr as (s' & Hr & El & ->); eauto.
    + intros toks [Hp Hc]. split; auto. intros st' st0' us st1' _ Hr Eu Hu. apply (Hstep K) in Hr as (s' & Hr & El & ->); eauto.
  - destruct Hk as (ts & st0 & H1 & H2 & He0 & H3 & H4). exists ((t, line s) :: ts), st0.
    split; [econstructor; eauto|]. split; [discriminate|]. split; [constructor; auto|]. split; [assumption|]. revert H4. apply tells_same.
    + intros it f Hf st' st0' _ Hr Hi. apply (Hstep K) in Hr as (s' & Hr & El & ->); eauto.
    + intros toks [Hp Hc]. split; auto. intros st' st0' us st1' _ Hr Eu Hu. apply (Hstep K) in Hr as (s' & Hr & El & ->); eauto.
Qed.
Lemma imm_fail {A} xo (M : P A) Pc toks st t s (r : N -> failure) :
  get_token st = (LTok t, s) -> Acc toks M Pc -> hits M t r -> expects (r (line s)) = xo ->
  told xo M Pc (fun u => exists r, hits M u r) -> Vfail None M Pc st (r (line s)).
Proof.
  intros E Ha Hh Ex Ht. assert (item st = (LTok t, line s)) as Ei by (unfold item; rewrite E; auto).
  exists [], st. split; [constructor|]. split; [congruence|]. split; [constructor|]. rewrite Ei. split; [apply Hh|].
  split; [apply hits_fin; auto|]. split; [exists toks; apply acc_compl; auto|]. rewrite Ex. apply told_says. auto.
Qed.
Lemma hits_get {A} xo t (k K : token -> P A) : imm xo t (k t) (K t) -> exists r, hits (bind get K) t r.
Proof.
  intros (r & E1 & E2 & Hb). exists r. split; [|apply Hb]. intros st' s' E'. unfold bind, get. rewrite E'. apply E2.
Qed.
Lemma hits_peek {A} xo t (k K : token -> P A) : imm xo t (k (peeked t)) (K (peeked t)) \/ immn xo t (k (peeked t)) (K (peeked t)) ->
  exists r, hits (bind peek K) t r.
Proof.
  intros [(r & E1 & E2 & Hb)|(r & E1 & E2 & Hb)]; exists r; (split; [|apply Hb]); intros st' s' E';
    destruct (peek_of _ _ _ E') as (stp' & Ep' & _ & Eg' & El'); unfold bind, peek; rewrite Ep'; cbn [of_lex].
  - rewrite E2. congruence.
  - apply E2; auto.
Qed.
Lemma raised {A} (g : option token) (M : P A) (Q : A -> list (token * N) -> option token -> Prop) (Pc : A -> Prop) st f : Vfail g M Pc st f ->
  match (raise f : presult A) with
  | POk a st1 => Vok g M Q st a st1 | PErr e => Vfail g M Pc st (inl e) | PPanic p => Vfail g M Pc st (inr p) | PFuel => True
  end.
Proof. destruct f; auto. Qed.

Lemma eof_again st s : get_token st = (LTok TEOF, s) -> next s TEOF.
Proof.
  intros E. apply get_token_spec in E as (g & x & Er & Hg & Hs & El).
  assert (rest s = ""%string) as E0.
  { inversion Hs; subst; auto; match goal with Hi : In _ (_ TEOF) |- _ => destruct Hi end. }
  destruct s as [r l]. simpl in E0. subst r. exists (mkL "" (l + count_nl "")). apply gap_eof. constructor.
Qed.
Lemma v_get {A} xo toks (k K : token -> P A) (Q : A -> list (token * N) -> option token -> Prop) (Pc : A -> Prop) :
  told xo (bind get K) Pc (fun u => imm xo u (k u) (K u)) -> Acc toks (bind get K) Pc ->
  (forall t, (t <> TEOF /\ V None (k t) (K t) (fun a us g1 => forall l, Q a ((t, l) :: us) g1) Pc) \/ imm xo t (k t) (K t)
             \/ (t = TEOF /\ exists a, k t = ret a /\ K t = ret a /\ forall l, Q a [(t, l)] (Some TEOF)) \/ k t = pfuel) ->
  V None (bind get k) (bind get K) Q Pc.
Proof.
  intros Hto Ha Hk st _. destruct (get_token st) as [o s] eqn:E. destruct o as [t|e|p|].
  - destruct (Hk t) as [(Ht & Hv)|[(r & E1 & E2 & Hb)|[(-> & a & E1 & E2 & Hq)|E1]]]; [eapply v_read; eauto| | |].
    3:{ unfold bind at 1, get at 1. rewrite E. cbn [of_lex]. rewrite E1. exact I. }
    2:{ unfold bind at 1, get at 1. rewrite E. cbn [of_lex]. rewrite E1. cbn [ret].
        exists [(TEOF, line s)], (Some TEOF), s. split; [econstructor; [eauto|constructor]|]. split; [apply same_next_refl|].
        split; [discriminate|]. split; [intros u Eu; injection Eu as <-; eapply eof_again; eauto|]. split; [discriminate|].
        split; [auto|]. split; [auto|]. intros st' st0' _ Hr _. apply reads_cons_inv in Hr as (s' & E' & El & Hr).
        apply reads_nil_inv in Hr. subst s'. exists st0'. split; [|split; [apply same_next_refl|discriminate]].
        unfold bind, get. rewrite E'. cbn [of_lex]. rewrite E2. reflexivity. }
    unfold bind at 1, get at 1. rewrite E. cbn [of_lex]. rewrite E1. apply raised.
    apply (imm_fail xo _ _ toks _ t); auto.
    { split; [|apply Hb]. intros st' s' E'. unfold bind, get. rewrite E'. apply E2. }
    { apply Hb. }
    eapply told_bad; [|exact Hto]. intros u. apply hits_get.
  - rewrite (get_fail st k _ _ E). apply (lex_fail (bind get K) Pc toks st _ _ E Ha). intros st' s' E'. exact (get_fail st' K _ _ E').
  - rewrite (get_fail st k _ _ E). apply (lex_fail (bind get K) Pc toks st _ _ E Ha). intros st' s' E'. exact (get_fail st' K _ _ E').
  - rewrite (get_fail st k _ _ E). auto.
Qed.
Lemma v_get_some {A} t (k K : token -> P A) (Q : A -> list (token * N) -> option token -> Prop) (Pc : A -> Prop) :
  t <> TEOF -> V None (k t) (K t) (fun a us g1 => forall l, Q a ((t, l) :: us) g1) Pc -> V (Some t) (bind get k) (bind get K) Q Pc.
Proof. intros Ht Hk st Hg. destruct (Hg t eq_refl) as (s & E). eapply v_read; eauto. Qed.

(** A look at the next token, then [k]. *)
Lemma v_look {A} (g : option token) t (k K : token -> P A) (Q : A -> list (token * N) -> option token -> Prop) (Pc : A -> Prop) st s :
  get_token st = (LTok t, s) -> (g = None \/ g = Some t) ->
  V (Some t) (k (peeked t)) (K (peeked t)) Q Pc ->
  match bind peek k st with
  | POk a st1 => Vok g (bind peek K) Q st a st1
  | PErr e => Vfail g (bind peek K) Pc st (inl e)
  | PPanic p => Vfail g (bind peek K) Pc st (inr p)
  | PFuel => True
  end.
Proof.
  intros E Hg0 Hk. destruct (peek_of _ _ _ E) as (stp & Ep & Hs & Eg & El).
  unfold bind at 1, peek at 1. rewrite Ep. cbn [of_lex].
  specialize (Hk stp ltac:(intros u Eu; injection Eu as <-; exists s; auto)).
  assert (forall M st', M = K -> next st' t -> exists stp', same_next stp' st' /\ bind peek M st' = M (peeked t) stp') as Hstep.
  { intros M st' -> (s' & E'). destruct (peek_of _ _ _ E') as (stp' & Ep' & Hs' & _). exists stp'. split; auto.
    unfold bind, peek. rewrite Ep'. reflexivity. }
  assert (forall st' ts st0', ts <> [] -> Reads stp ts st0' -> forall st'' , Reads st' ts st'' -> next st' t) as Hnext.
  { intros st' [|[u l] ts] st0' Hn Hr st'' Hr'; [congruence|]. apply reads_cons_inv in Hr as (x & Ex & _).
    apply reads_cons_inv in Hr' as (y & Ey & _). rewrite Ex in Eg. injection Eg as -> _. exists y; auto. }
  destruct (k (peeked t) stp) as [a st1|e|p|]; auto.
  - destruct Hk as (ts & g1 & st0 & H1 & H2 & H3 & H4 & H5 & H5e & H6 & H7).
    destruct ts as [|x ts].
    + apply reads_nil_inv in H1. subst st0. specialize (H5 ltac:(discriminate) eq_refl). subst g1.
      exists [], (Some t), st. split; [constructor|]. split; [eapply same_next_trans; eauto using same_next_sym|].
      split; [discriminate|]. split; [intros u Eu; injection Eu as <-; exists s; auto|].
      split; [intros; destruct Hg0; congruence|]. split; [left; constructor|]. split; auto.
      intros st' st0' _ Hr Hg. apply reads_nil_inv in Hr. subst st0'.
      destruct (Hstep K st' eq_refl (Hg t eq_refl)) as (stp' & Hs' & ->).
      destruct (H7 stp' stp' ltac:(discriminate) (rd_nil _)) as (st1' & Em & Hn & _).
      { intros u Eu. eapply next_shift; [apply same_next_sym; eauto|auto]. }
      exists st1'. split; auto. split; [eapply same_next_trans; eauto using same_next_sym|discriminate].
    + exists (x :: ts), g1, st0. split; [apply (reads_shift stp); auto; discriminate|]. repeat (split; [assumption|]).
      split; [discriminate|]. split; auto. split; auto. intros st' st0' _ Hr Hg.
      destruct (Hstep K st' eq_refl) as (stp' & Hs' & ->). { eapply Hnext; eauto. discriminate. }
      apply (H7 stp' st0'); auto; [discriminate|]. apply (reads_shift st'); auto using same_next_sym. discriminate.
  - destruct Hk as (ts & st0 & H1 & H2 & He0 & H3 & H4). specialize (H2 ltac:(discriminate)).
    exists ts, st0. split; [apply (reads_shift stp); auto|]. split; [auto|]. split; [assumption|]. split; [assumption|]. revert H4. apply tells_same.
    + intros it f Hf st' st0' _ Hr Hi. destruct (Hstep K st' eq_refl) as (stp' & Hs' & ->). { eapply Hnext; eauto. }
      apply (Hf stp' st0'); auto; [discriminate|]. apply (reads_shift st'); auto using same_next_sym.
    + intros toks [Hp Hc]. split; auto. intros st' st0' us st1' _ Hr Eu Hu.
      destruct (Hstep K st' eq_refl) as (stp' & Hs' & ->). { eapply Hnext; eauto. }
      apply (Hc stp' st0' us); auto; [discriminate|]. apply (reads_shift st'); auto using same_next_sym.
  - destruct Hk as (ts & st0 & H1 & H2 & He0 & H3 & H4). specialize (H2 ltac:(discriminate)).
    exists ts, st0. split; [apply (reads_shift stp); auto|]. split; [auto|]. split; [assumption|]. split; [assumption|]. revert H4. apply tells_same.
    + intros it f Hf st' st0' _ Hr Hi. destruct (Hstep K st' eq_refl) as (stp' & Hs' & ->). { eapply Hnext; eauto. }
      apply (Hf stp' st0'); auto; [discriminate|]. apply (reads_shift st'); auto using same_next_sym.
    + intros toks [Hp Hc]. split; auto. intros st' st0' us st1' _ Hr Eu Hu.
      destruct (Hstep K st' eq_refl) as (stp' & Hs' & ->). { eapply Hnext; eauto. }
      apply (Hc stp' st0' us); auto; [discriminate|]. apply (reads_shift st'); auto using same_next_sym.
Qed.
Lemma v_peek {A} xo toks (k K : token -> P A) (Q : A -> list (token * N) -> option token -> Prop) (Pc : A -> Prop) :
  told xo (bind peek K) Pc (fun u => imm xo u (k (peeked u)) (K (peeked u)) \/ immn xo u (k (peeked u)) (K (peeked u))) ->
  Acc toks (bind peek K) Pc ->
  (forall t, V (Some t) (k (peeked t)) (K (peeked t)) Q Pc \/ imm xo t (k (peeked t)) (K (peeked t)) \/
     immn xo t (k (peeked t)) (K (peeked t))) ->
  V None (bind peek k) (bind peek K) Q Pc.
Proof.
  intros Hto Ha Hk st _.
  assert (told xo (bind peek K) Pc (fun u => exists r, hits (bind peek K) u r)) as Hto'.
  { eapply told_bad; [|exact Hto]. intros u. apply hits_peek. }
  destruct (get_token st) as [o s] eqn:E. destruct o as [t|e|p|].
  - destruct (Hk t) as [Hv|[(r & E1 & E2 & Hb)|(r & E1 & E2 & Hb)]]; [eapply v_look; eauto| |].
    2:{ destruct (peek_of _ _ _ E) as (stp & Ep & Hs & Eg & El).
        unfold bind at 1, peek at 1. rewrite Ep. cbn [of_lex]. rewrite (E1 _ _ Eg). apply raised.
        apply (imm_fail xo _ _ toks _ t); auto; [|apply Hb].
        split; [|apply Hb]. intros st' s' E'. destruct (peek_of _ _ _ E') as (stp' & Ep' & _ & Eg' & El').
        unfold bind, peek. rewrite Ep'. cbn [of_lex]. apply E2; auto. }
    destruct (peek_of _ _ _ E) as (stp & Ep & Hs & Eg & El).
    unfold bind at 1, peek at 1. rewrite Ep. cbn [of_lex]. rewrite E1. apply raised. rewrite El.
    apply (imm_fail xo _ _ toks _ t); auto; [|apply Hb].
    split; [|apply Hb]. intros st' s' E'. destruct (peek_of _ _ _ E') as (stp' & Ep' & _ & _ & El').
    unfold bind, peek. rewrite Ep'. cbn [of_lex]. rewrite E2. congruence.
  - rewrite (peek_fail st k _ _ E). apply (lex_fail (bind peek K) Pc toks st _ _ E Ha). intros st' s' E'. exact (peek_fail st' K _ _ E').
  - rewrite (peek_fail st k _ _ E). apply (lex_fail (bind peek K) Pc toks st _ _ E Ha). intros st' s' E'. exact (peek_fail st' K _ _ E').
  - rewrite (peek_fail st k _ _ E). auto.
Qed.
Lemma v_peek_some {A} t (k K : token -> P A) (Q : A -> list (token * N) -> option token -> Prop) (Pc : A -> Prop) :
  V (Some t) (k (peeked t)) (K (peeked t)) Q Pc -> V (Some t) (bind peek k) (bind peek K) Q Pc.
Proof. intros Hk st Hg. destruct (Hg t eq_refl) as (s & E). eapply v_look; eauto. Qed.

(** Sequence.  The second part may fail at once on the last token of the first,
    if another continuation of what precedes that token succeeds. *)
Definition late {A B} (g : option token) (ts : list (token * N)) (m M : P A) (K : A -> P B) (kb Kb : P B) (Pc : B -> Prop) : Prop :=
  g = None /\ exists ts0 t l toks x w, ts = ts0 ++ [(t, l)] /\ imm (Some x) t kb Kb /\ Acc (map fst ts0 ++ toks) (bind M K) Pc
    /\ phrase x w Some_of /\ forall u, named w u -> printable u -> exists toks, Acc (map fst ts0 ++ u :: toks) (bind M K) Pc.
Lemma v_bind {A B} (g : option token) toks (m M : P A) (k K : A -> P B) (Q : A -> list (token * N) -> option token -> Prop) (Pc : A -> Prop)
  (Q' : B -> list (token * N) -> option token -> Prop) (Pc' : B -> Prop) :
  V g m M Q Pc -> Forall printable toks -> (forall a, Pc a -> Acc toks (K a) Pc') ->
  (forall a ts g1, Q a ts g1 ->
     V g1 (k a) (K a) (fun b us g2 => Q' b (ts ++ us) g2) Pc' \/ (g1 = None /\ late g ts m M K (k a) (K a) Pc')) ->
  V g (bind m k) (bind M K) Q' Pc'.
Proof.
  intros Hm Htk Ha Hk st Hg. specialize (Hm st Hg). unfold bind at 1.
  destruct (m st) as [a st1|e|p|]; auto.
  - destruct Hm as (ts & g1 & st0 & H1 & H2 & H3 & H4 & H5 & H5e & H6 & H7).
    destruct (Hk a ts g1 H6) as [Hv|(-> & -> & ts0 & t & l & toks' & x & w & -> & (r & E1 & E2 & Hb) & Hacc & Hph & Hnm)].
    + assert (forall t, g1 = Some t -> next st1 t) as Hg1 by (intros; eapply next_shift; eauto).
      specialize (Hv st1 Hg1).
      assert (forall st', (g = None -> line st' = line st) -> forall st0', Reads st' ts st0' ->
        (forall t, g1 = Some t -> next st0' t) ->
        exists st1', bind M K st' = K a st1' /\ same_next st0' st1' /\ (g1 = None -> st1' = st0' /\ line st1' = line st1)) as Hstep.
      { intros st' Hl st0' Hr Hn. destruct (H7 st' st0' Hl Hr Hn) as (st1' & Em & Hs & He).
        exists st1'. split; [unfold bind; rewrite Em; auto|]. split; auto. intros Eg. split; auto.
        rewrite (He Eg), (H3 Eg). destruct ts as [|x ts].
        - apply reads_nil_inv in Hr. apply reads_nil_inv in H1. subst. destruct g as [t|]; [|auto].
          assert (None = Some t) by (apply H5; [discriminate|auto]). discriminate.
        - symmetry. eapply reads_lines'; [|exact H1|exact Hr]. discriminate. }
      assert (forall us st2, Reads st1 us st2 -> (g1 <> None -> us <> []) -> exists st2', Reads st0 us st2' /\ same_next st2' st2 /\ (us <> [] \/ g1 = None -> st2' = st2)) as Hjoin.
      { intros us st2 Hr Hn. destruct us as [|x us].
        - apply reads_nil_inv in Hr. subst st2. destruct g1 as [t|]; [exfalso; apply Hn; congruence|].
          exists st0. split; [constructor|]. split; auto. intros _. symmetry; auto.
        - exists st2. split; [apply (reads_shift st1); auto using same_next_sym; discriminate|]. split; auto. apply same_next_refl. }
      assert (forall us st' st2 st2', Reads st1 us st2 -> us <> [] -> Reads st' (ts ++ us) st2' ->
        exists st0', Reads st' ts st0' /\ Reads st0' us st2' /\ (forall t, g1 = Some t -> next st0' t)) as Hsplit.
      { intros us st' st2 st2' Hr Hn Hr'. apply reads_app_inv in Hr' as (st0' & Hr1 & Hr2). exists st0'. split; auto. split; auto.
        intros t Et. destruct us as [|[u lu] us]; [congruence|].
        apply reads_cons_inv in Hr as (x & Ex & _). apply reads_cons_inv in Hr2 as (y & Ey & _).
        destruct (Hg1 t Et) as (z & Ez). rewrite Ez in Ex. injection Ex as -> _. exists y; auto. }
      assert (forall us st2, g1 = Some TEOF -> Reads st1 us st2 -> us <> [] -> ~ noeof us) as Heof.
      { intros us st2 Eg Hr Hn Hu. destruct us as [|[u lu] us]; [congruence|].
        apply reads_cons_inv in Hr as (x & Ex & _). destruct (Hg1 _ Eg) as (y & Ey). rewrite Ey in Ex. injection Ex as <- _.
        inversion Hu; subst. simpl in *. congruence. }
      destruct (k a st1) as [b st2|e|p|]; auto.
      * destruct Hv as (us & g2 & st3 & J1 & J2 & J3 & J4 & J5 & Je & J6 & J7).
        destruct us as [|x us].
        -- apply reads_nil_inv in J1. subst st3. rewrite app_nil_r in J6.
           exists ts, g2, st0. split; auto. split; [eapply same_next_trans; eauto|].
           assert (g2 = None -> g1 = None) as Hgg.
           { intros ->. destruct g1; auto. symmetry. apply J5; auto. discriminate. }
           split. { intros ->. rewrite (J3 eq_refl). apply H3. auto. }
           split. { intros t Et. eapply next_shift; [apply same_next_sym; eauto|auto]. }
           split. { intros Hn Ht. destruct g1 as [t|].
             - rewrite <- (H5 Hn Ht). apply J5; auto. discriminate.
             - exfalso. apply Hn. symmetry. auto. }
           split. { destruct H5e as [He|Eg]; auto. right. rewrite <- Eg. apply J5; auto. congruence. }
           split; auto. intros st' st0' Hl Hr Hn.
           assert (forall t, g1 = Some t -> next st0' t) as Hn1.
           { intros t Et. apply Hn. rewrite <- Et. apply J5; auto. congruence. }
           destruct (Hstep st' Hl st0' Hr Hn1) as (st1' & -> & Hs & He).
           destruct (J7 st1' st1') as (st2' & Ek & Hs2 & He2); auto.
           { intros Eg. apply He; auto. }
           { constructor. }
           { intros t Et. eapply next_shift; eauto. }
           exists st2'. split; auto. split; [eapply same_next_trans; eauto|]. intros Eg. rewrite (He2 Eg). apply He. auto.
        -- exists (ts ++ x :: us), g2, st3. split.
           { eapply reads_app; [exact H1|]. apply (reads_shift st1); auto using same_next_sym. discriminate. }
           repeat (split; [assumption|]). split; [intros _ Et; destruct ts; discriminate|].
           split. { destruct H5e as [He|Eg].
             - destruct Je as [Je|]; auto. left. apply Forall_app. auto.
             - destruct Je as [Je|]; auto. exfalso. eapply (Heof (x :: us)); eauto. discriminate. }
           split; auto.
           intros st' st3' Hl Hr Hn. destruct (Hsplit _ _ _ _ J1 ltac:(discriminate) Hr) as (st0' & R1 & R2 & R3).
           destruct (Hstep st' Hl st0' R1 R3) as (st1' & -> & Hs & He).
           apply (J7 st1' st3'); auto. { intros Eg. apply He; auto. }
           apply (reads_shift st0'); auto. discriminate.
      * destruct Hv as (us & st3 & J1 & J2 & Je & J3 & J4).
        assert (exists st3', Reads st0 us st3' /\ same_next st3' st3) as (st3' & J6 & J7).
        { destruct (Hjoin us st3 J1) as (x & X1 & X2 & _); auto. exists x; auto. }
        assert (forall st' st9, Reads st' (ts ++ us) st9 -> exists st0', Reads st' ts st0' /\ Reads st0' us st9 /\
           (forall t, g1 = Some t -> next st0' t)) as Hsp.
        { intros st' st9 Hr. destruct us as [|x us].
          - apply reads_app_inv in Hr as (st0' & R1 & R2). exists st0'. split; auto. split; auto.
            intros t Et. exfalso. apply J2; auto. congruence.
          - eapply Hsplit; eauto. discriminate. }
        assert (forall st0' st1' st9, same_next st0' st1' -> (g1 = None -> st1' = st0' /\ line st1' = line st1) -> Reads st0' us st9 -> Reads st1' us st9) as Hmv.
        { intros st0' st1' st9 Hs He Hr. destruct g1 as [t|].
          - apply (reads_shift st0'); auto. apply J2. discriminate.
          - destruct (He eq_refl) as [-> _]. auto. }
        exists (ts ++ us), st3'. split; [eapply reads_app; eauto|].
        split. { intros Hgn E. apply app_eq_nil in E as [-> ->]. apply J2; auto. rewrite (H5 Hgn eq_refl). auto. }
        split. { apply Forall_app. split; auto. destruct H5e as [|Eg]; auto. exfalso. eapply (Heof us); eauto. apply J2. congruence. }
        rewrite (item_shift _ _ J7). split; [auto|]. revert J4. apply tells_same.
        -- intros it f J4 st' st9 Hl Hr Hi. destruct (Hsp _ _ Hr) as (st0' & R1 & R2 & R3).
           destruct (Hstep st' Hl st0' R1 R3) as (st1' & -> & Hs & He). apply (J4 st1' st9); eauto.
           { intros Eg. apply He; auto. }
        -- intros toks' [Hpt J5]. split; [assumption|]. intros st' st9 vs st8 Hl Hr Ev Hv. destruct (Hsp _ _ Hr) as (st0' & R1 & R2 & R3).
           destruct (Hstep st' Hl st0' R1 R3) as (st1' & -> & Hs & He). apply (J5 st1' st9 vs); eauto.
           { intros Eg. apply He; auto. }
      * destruct Hv as (us & st3 & J1 & J2 & Je & J3 & J4).
        assert (exists st3', Reads st0 us st3' /\ same_next st3' st3) as (st3' & J6 & J7).
        { destruct (Hjoin us st3 J1) as (x & X1 & X2 & _); auto. exists x; auto. }
        assert (forall st' st9, Reads st' (ts ++ us) st9 -> exists st0', Reads st' ts st0' /\ Reads st0' us st9 /\
           (forall t, g1 = Some t -> next st0' t)) as Hsp.
        { intros st' st9 Hr. destruct us as [|x us].
          - apply reads_app_inv in Hr as (st0' & R1 & R2). exists st0'. split; auto. split; auto.
            intros t Et. exfalso. apply J2; auto. congruence.
          - eapply Hsplit; eauto. discriminate. }
        assert (forall st0' st1' st9, same_next st0' st1' -> (g1 = None -> st1' = st0' /\ line st1' = line st1) -> Reads st0' us st9 -> Reads st1' us st9) as Hmv.
        { intros st0' st1' st9 Hs He Hr. destruct g1 as [t|].
          - apply (reads_shift st0'); auto. apply J2. discriminate.
          - destruct (He eq_refl) as [-> _]. auto. }
        exists (ts ++ us), st3'. split; [eapply reads_app; eauto|].
        split. { intros Hgn E. apply app_eq_nil in E as [-> ->]. apply J2; auto. rewrite (H5 Hgn eq_refl). auto. }
        split. { apply Forall_app. split; auto. destruct H5e as [|Eg]; auto. exfalso. eapply (Heof us); eauto. apply J2. congruence. }
        rewrite (item_shift _ _ J7). split; [auto|]. revert J4. apply tells_same.
        -- intros it f J4 st' st9 Hl Hr Hi. destruct (Hsp _ _ Hr) as (st0' & R1 & R2 & R3).
           destruct (Hstep st' Hl st0' R1 R3) as (st1' & -> & Hs & He). apply (J4 st1' st9); eauto.
           { intros Eg. apply He; auto. }
        -- intros toks' [Hpt J5]. split; [assumption|]. intros st' st9 vs st8 Hl Hr Ev Hv. destruct (Hsp _ _ Hr) as (st0' & R1 & R2 & R3).
           destruct (Hstep st' Hl st0' R1 R3) as (st1' & -> & Hs & He). apply (J5 st1' st9 vs); eauto.
           { intros Eg. apply He; auto. }
    + (* fails on the last token *)
      apply reads_app_inv in H1 as (s0 & R1 & R2). pose proof R2 as R3.
      apply reads_cons_inv in R2 as (s1 & Eg & El & R2). apply reads_nil_inv in R2. subst s1.
      rewrite (H3 eq_refl), E1. apply raised. exists ts0, s0. split; auto. split; [congruence|].
      split. { destruct H5e as [He|]; [|discriminate]. apply Forall_app in He as [He _]. exact He. }
      assert (item s0 = (LTok t, l)) as Ei by (unfold item; rewrite Eg; simpl; congruence).
      rewrite Ei. cbn [fst snd]. rewrite El. split; [apply Hb|].
      assert (forall us0, Acc (map fst ts0 ++ us0) (bind M K) Pc' -> Compl None (bind M K) Pc' st ts0 us0) as Hac.
      { intros us0 [Hp0 Hc0]. split; [apply Forall_app in Hp0; tauto|]. intros st' st0' us st1' Hl Hr Eu Hu.
        apply (Hc0 st' (ts0 ++ us) st1'); [rewrite map_app; congruence|]. eapply reads_app; eauto. }
      split; [|split; [exists toks'; apply Hac; exact Hacc|]].
      * intros st' st0' Hl Hr Hi. unfold item in Hi. injection Hi as Hi1 Hi2.
        destruct (get_token st0') as [o y] eqn:Ey. simpl in Hi1, Hi2. subst o.
        destruct (H7 st' y Hl) as (st1' & Em & _ & He).
        { eapply reads_app; [exact Hr|]. rewrite <- Hi2. econstructor; [exact Ey|constructor]. }
        { discriminate. }
        unfold bind. rewrite Em, E2, (He eq_refl). rewrite Hi2. auto.
      * rewrite (proj2 (Hb l)). exists w, Some_of. split; [exact Hph|]. split; [|discriminate].
        intros u Hu Hq. destruct (Hnm u Hu Hq) as (us0 & H0). exists us0. apply Hac. exact H0.
  - destruct Hm as (ts & st0 & H1 & H2 & He0 & H3 & H4). exists ts, st0. repeat (split; [assumption|]). revert H4. apply (tells_lift toks).
    + intros it f Hf st' st0' Hl Hr Hi. unfold bind. rewrite (Hf st' st0' Hl Hr Hi). destruct f; auto.
    + intros toks' [Hpt H5]. split; [apply Forall_app; auto|]. intros st' st0' us st1' Hl Hr Eu Hu.
      assert (us = firstn (length toks') us ++ skipn (length toks') us) as Es by (symmetry; apply firstn_skipn).
      assert (map fst (firstn (length toks') us) = toks') as F1.
      { rewrite <- firstn_map, Eu. rewrite firstn_app, Nat.sub_diag, firstn_all, firstn_O. apply app_nil_r. }
      assert (map fst (skipn (length toks') us) = toks) as F2.
      { rewrite <- skipn_map, Eu. rewrite skipn_app, Nat.sub_diag, skipn_all. auto. }
      rewrite Es in Hu. apply reads_app_inv in Hu as (s & Hu1 & Hu2).
      destruct (H5 st' st0' _ s Hl Hr F1 Hu1) as (a & Hpa & Ea).
      destruct (proj2 (Ha a Hpa) _ _ _ F2 Hu2) as (b & Hpb & Eb). exists b. split; auto. unfold bind. rewrite Ea. auto.
  - destruct Hm as (ts & st0 & H1 & H2 & He0 & H3 & H4). exists ts, st0. repeat (split; [assumption|]). revert H4. apply (tells_lift toks).
    + intros it f Hf st' st0' Hl Hr Hi. unfold bind. rewrite (Hf st' st0' Hl Hr Hi). destruct f; auto.
    + intros toks' [Hpt H5]. split; [apply Forall_app; auto|]. intros st' st0' us st1' Hl Hr Eu Hu.
      assert (us = firstn (length toks') us ++ skipn (length toks') us) as Es by (symmetry; apply firstn_skipn).
      assert (map fst (firstn (length toks') us) = toks') as F1.
      { rewrite <- firstn_map, Eu. rewrite firstn_app, Nat.sub_diag, firstn_all, firstn_O. apply app_nil_r. }
      assert (map fst (skipn (length toks') us) = toks) as F2.
      { rewrite <- skipn_map, Eu. rewrite skipn_app, Nat.sub_diag, skipn_all. auto. }
      rewrite Es in Hu. apply reads_app_inv in Hu as (s & Hu1 & Hu2).
      destruct (H5 st' st0' _ s Hl Hr F1 Hu1) as (a & Hpa & Ea).
      destruct (proj2 (Ha a Hpa) _ _ _ F2 Hu2) as (b & Hpb & Eb). exists b. split; auto. unfold bind. rewrite Ea. auto.
Qed.
End Prefix.
