(** Rules of ParserPrefix for the shapes of token tests the parser uses: the
    tokens named continue, every other token is an error about itself. *)
From Coq Require Import String Ascii NArith ZArith Bool List Lia PeanoNat.
From Verif Require Import Base Token Lexer Errors Ast Parser StrFacts SpecLex LexProofs LexProofs2 LexProofs3
  ParserStream GrammarSound GrammarComplete SpecExpect ParserPrefix.
Import ListNotations.
Open Scope list_scope.
Open Scope nat_scope.

Ltac toks t := let k := fresh "k" in let s := fresh "s" in let w := fresh "w" in let o := fresh "o" in let p := fresh "p" in
  let r := fresh "r" in
  intros t; destruct t as [k|s|w|o|p|r|]; [destruct k|..|idtac]; try (destruct o); try (destruct p);
  cbn beta iota delta [peeked]; try (right; left; apply imm_syn).
(** Cases over a token. *)
Ltac toks_in t := destruct t as [[]| | |[]|[]| |]; cbn beta iota delta [peeked].
Ltac here := left; split; [discriminate|].
Ltac immp := right; left; eexists (fun l => inl (ESyn (mkSynErr _ _ l))); split; [reflexivity|]; split; [reflexivity|];
        intros l; simpl; eauto 6; fail.

Section Shapes.
Context `{Unicode}.

(** Postconditions that do not depend on the tokens read. *)
Definition VI {A} (g : option token) (m M : P A) (R : A -> option token -> Prop) (Pc : A -> Prop) : Prop :=
  V g m M (fun a _ g => R a g) Pc.
Definition N0 {A} (_ : A) (g : option token) : Prop := g = None.
Definition PT {A} (_ : A) : Prop := True.

Lemma i_ret {A} g (a : A) (R : A -> option token -> Prop) Pc : R a g -> VI g (ret a) (ret a) R Pc.
Proof. intros. apply v_ret. auto. Qed.
Lemma i_retb {A B} g (a : A) (k K : A -> P B) R Pc : VI g (k a) (K a) R Pc -> VI g (bind (ret a) k) (bind (ret a) K) R Pc.
Proof. auto. Qed.
Lemma acc_retb {A B} (a : A) toks (K : A -> P B) Pc : Acc toks (K a) Pc -> Acc toks (bind (ret a) K) Pc.
Proof. auto. Qed.
Lemma i_pos {A} (k K : N -> P A) R Pc : (forall p, VI None (k p) (K p) R Pc) -> VI None (bind pos k) (bind pos K) R Pc.
Proof. intros. apply v_pos. auto. Qed.
Lemma i_get {A} xo toks (k K : token -> P A) (R : A -> option token -> Prop) (Pc : A -> Prop) :
  told xo (bind get K) Pc (fun u => imm xo u (k u) (K u)) -> Acc toks (bind get K) Pc ->
  (forall t, (t <> TEOF /\ VI None (k t) (K t) R Pc) \/ imm xo t (k t) (K t)
             \/ (t = TEOF /\ exists a, k t = ret a /\ K t = ret a /\ R a (Some TEOF)) \/ k t = pfuel) ->
  VI None (bind get k) (bind get K) R Pc.
Proof.
  intros Ht Ha Hk. apply (v_get xo toks); auto. intros t. destruct (Hk t) as [[Hne Hv]|[Hi|[(E & a & E1 & E2 & Hq)|E]]]; auto.
  - left. split; auto. eapply v_post; [exact Hv| |]; auto.
  - right. right. left. split; eauto.
Qed.
Lemma i_get_some {A} t (k K : token -> P A) (R : A -> option token -> Prop) (Pc : A -> Prop) :
  t <> TEOF -> VI None (k t) (K t) R Pc -> VI (Some t) (bind get k) (bind get K) R Pc.
Proof. intros Ht Hv. apply v_get_some; auto. eapply v_post; [exact Hv| |]; auto. Qed.
Lemma i_peek {A} xo toks (k K : token -> P A) (R : A -> option token -> Prop) (Pc : A -> Prop) :
  told xo (bind peek K) Pc (fun u => imm xo u (k (peeked u)) (K (peeked u)) \/ immn xo u (k (peeked u)) (K (peeked u))) ->
  Acc toks (bind peek K) Pc ->
  (forall t, VI (Some t) (k (peeked t)) (K (peeked t)) R Pc \/ imm xo t (k (peeked t)) (K (peeked t)) \/
     immn xo t (k (peeked t)) (K (peeked t))) ->
  VI None (bind peek k) (bind peek K) R Pc.
Proof. intros. eapply v_peek; eauto. Qed.
Lemma i_peek_some {A} t (k K : token -> P A) (R : A -> option token -> Prop) (Pc : A -> Prop) :
  VI (Some t) (k (peeked t)) (K (peeked t)) R Pc -> VI (Some t) (bind peek k) (bind peek K) R Pc.
Proof. intros. apply v_peek_some. auto. Qed.
Lemma i_bind {A B} (g : option token) toks (m M : P A) (k K : A -> P B) (R : A -> option token -> Prop) (Pc : A -> Prop)
  (R' : B -> option token -> Prop) (Pc' : B -> Prop) :
  VI g m M R Pc -> Forall printable toks -> (forall a, Pc a -> Acc toks (K a) Pc') ->
  (forall a g1, R a g1 -> VI g1 (k a) (K a) R' Pc') -> VI g (bind m k) (bind M K) R' Pc'.
Proof. intros Hm Hp Ha Hk. eapply v_bind; eauto. intros a ts g1 HR. left. eapply v_post; [apply Hk; eauto| |]; auto. Qed.
Lemma i_post {A} g (m M : P A) (R R' : A -> option token -> Prop) (Pc Pc' : A -> Prop) :
  VI g m M R Pc -> (forall a g1, R a g1 -> R' a g1) -> (forall a, Pc a -> Pc' a) -> VI g m M R' Pc'.
Proof. intros Hm H1 H2. eapply v_post; eauto. Qed.

Lemma x_printable : printable (TIdent "x").
Proof. split; [|discriminate]. simpl. split; auto. left. reflexivity. Qed.
(** A message that names one token. *)
Lemma told_one {A} x (M : P A) t toks full Pc (bad : token -> Prop) : phrase x [One t] full -> hd TEOF toks = t -> t <> TEOF ->
  Acc toks M Pc -> (forall u, u <> t -> bad u) -> told (Some x) M Pc bad.
Proof.
  intros Hp Ht Hne Ha Hb. exists [One t], full. split; auto. split.
  - intros u (w & [<-|[]] & Hw) _. simpl in Hw. subst u. destruct toks as [|u toks]; [simpl in Ht; congruence|]. exists toks.
    simpl in Ht. subst. auto.
  - intros _ u Hu. apply Hb. intros ->. apply Hu. exists (One t). simpl. auto.
Qed.
Lemma told_ident {A} x (M : P A) toks full Pc (bad : token -> Prop) : phrase x [Identifier] full ->
  (forall s, printable (TIdent s) -> Acc (TIdent s :: toks) M Pc) -> (forall u, (forall s, u <> TIdent s) -> bad u) -> told (Some x) M Pc bad.
Proof.
  intros Hp Ha Hb. exists [Identifier], full. split; auto. split.
  - intros u (w & [<-|[]] & (s & ->)) Hq. exists toks. auto.
  - intros _ u Hu. apply Hb. intros s ->. apply Hu. exists Identifier. simpl. eauto.
Qed.

Lemma g_ident {A} full tl x (b0 : string -> P A) (c0 : string -> P A) (R : A -> option token -> Prop) (Pc : A -> Prop) :
  phrase x [Identifier] full ->
  (forall s, printable (TIdent s) -> Acc (TIdent s :: tl) (bind get (fun t => match t with | TIdent s => c0 s | other => syn x other end)) Pc) ->
  (forall s, VI None (b0 s) (c0 s) R Pc) ->
  VI None (bind get (fun t => match t with | TIdent s => b0 s | other => syn x other end)) (bind get (fun t => match t with | TIdent s => c0 s | other => syn x other end)) R Pc.
Proof.
  intros Hp Ha Hb. apply (i_get (Some x) (TIdent "x" :: tl)); auto using x_printable; [|toks t; here; auto].
  apply (told_ident _ _ tl full); auto. intros u Hu. toks_in u; try (apply imm_syn). exfalso. eapply Hu. reflexivity.
Qed.
Lemma g_rp {A} full tk x (b0 : P A) (c0 : P A) (R : A -> option token -> Prop) (Pc : A -> Prop) :
  phrase x [close_] full -> hd TEOF tk = TPunct RParen ->
  Acc tk (bind get (fun t => match t with | TPunct RParen => c0 | other => syn x other end)) Pc ->
  VI None b0 c0 R Pc ->
  VI None (bind get (fun t => match t with | TPunct RParen => b0 | other => syn x other end)) (bind get (fun t => match t with | TPunct RParen => c0 | other => syn x other end)) R Pc.
Proof.
  intros Hp Ht Ha Hb. apply (i_get (Some x) tk); auto; [|toks t; here; auto].
  apply (told_one _ _ (TPunct RParen) tk full); auto; [discriminate|]. intros u Hu. toks_in u; try (apply imm_syn); congruence.
Qed.
Lemma g_lp {A} full tk x (b0 : P A) (c0 : P A) (R : A -> option token -> Prop) (Pc : A -> Prop) :
  phrase x [open_] full -> hd TEOF tk = TPunct LParen ->
  Acc tk (bind get (fun t => match t with | TPunct LParen => c0 | other => syn x other end)) Pc ->
  VI None b0 c0 R Pc ->
  VI None (bind get (fun t => match t with | TPunct LParen => b0 | other => syn x other end)) (bind get (fun t => match t with | TPunct LParen => c0 | other => syn x other end)) R Pc.
Proof.
  intros Hp Ht Ha Hb. apply (i_get (Some x) tk); auto; [|toks t; here; auto].
  apply (told_one _ _ (TPunct LParen) tk full); auto; [discriminate|]. intros u Hu. toks_in u; try (apply imm_syn); congruence.
Qed.
Lemma g_kparams {A} full tk x (b0 : P A) (c0 : P A) (R : A -> option token -> Prop) (Pc : A -> Prop) :
  phrase x [kw KParameters] full -> hd TEOF tk = TKeyword KParameters ->
  Acc tk (bind get (fun t => match t with | TKeyword KParameters => c0 | other => syn x other end)) Pc ->
  VI None b0 c0 R Pc ->
  VI None (bind get (fun t => match t with | TKeyword KParameters => b0 | other => syn x other end)) (bind get (fun t => match t with | TKeyword KParameters => c0 | other => syn x other end)) R Pc.
Proof.
  intros Hp Ht Ha Hb. apply (i_get (Some x) tk); auto; [|toks t; here; auto].
  apply (told_one _ _ (TKeyword KParameters) tk full); auto; [discriminate|]. intros u Hu. toks_in u; try (apply imm_syn); congruence.
Qed.
Lemma g_ktask {A} full tk x (b0 : P A) (c0 : P A) (R : A -> option token -> Prop) (Pc : A -> Prop) :
  phrase x [kw KTask] full -> hd TEOF tk = TKeyword KTask ->
  Acc tk (bind get (fun t => match t with | TKeyword KTask => c0 | other => syn x other end)) Pc ->
  VI None b0 c0 R Pc ->
  VI None (bind get (fun t => match t with | TKeyword KTask => b0 | other => syn x other end)) (bind get (fun t => match t with | TKeyword KTask => c0 | other => syn x other end)) R Pc.
Proof.
  intros Hp Ht Ha Hb. apply (i_get (Some x) tk); auto; [|toks t; here; auto].
  apply (told_one _ _ (TKeyword KTask) tk full); auto; [discriminate|]. intros u Hu. toks_in u; try (apply imm_syn); congruence.
Qed.
Lemma g_kdefine {A} full tk x (b0 : P A) (c0 : P A) (R : A -> option token -> Prop) (Pc : A -> Prop) :
  phrase x [kw KDefine] full -> hd TEOF tk = TKeyword KDefine ->
  Acc tk (bind get (fun t => match t with | TKeyword KDefine => c0 | other => syn x other end)) Pc ->
  VI None b0 c0 R Pc ->
  VI None (bind get (fun t => match t with | TKeyword KDefine => b0 | other => syn x other end)) (bind get (fun t => match t with | TKeyword KDefine => c0 | other => syn x other end)) R Pc.
Proof.
  intros Hp Ht Ha Hb. apply (i_get (Some x) tk); auto; [|toks t; here; auto].
  apply (told_one _ _ (TKeyword KDefine) tk full); auto; [discriminate|]. intros u Hu. toks_in u; try (apply imm_syn); congruence.
Qed.
Lemma g_kdomain {A} full tk x (b0 : P A) (c0 : P A) (R : A -> option token -> Prop) (Pc : A -> Prop) :
  phrase x [kw KDomain] full -> hd TEOF tk = TKeyword KDomain ->
  Acc tk (bind get (fun t => match t with | TKeyword KDomain => c0 | other => syn x other end)) Pc ->
  VI None b0 c0 R Pc ->
  VI None (bind get (fun t => match t with | TKeyword KDomain => b0 | other => syn x other end)) (bind get (fun t => match t with | TKeyword KDomain => c0 | other => syn x other end)) R Pc.
Proof.
  intros Hp Ht Ha Hb. apply (i_get (Some x) tk); auto; [|toks t; here; auto].
  apply (told_one _ _ (TKeyword KDomain) tk full); auto; [discriminate|]. intros u Hu. toks_in u; try (apply imm_syn); congruence.
Qed.
Lemma g_kdoc {A} tk x (b0 : P A) (b1 : P A) (c0 : P A) (c1 : P A) (R : A -> option token -> Prop) (Pc : A -> Prop) :
  told (Some x) (bind get (fun t => match t with | TKeyword KDomain => c0 | TKeyword KProblem => c1 | other => syn x other end)) Pc (fun u => imm (Some x) u ((fun t => match t with | TKeyword KDomain => b0 | TKeyword KProblem => b1 | other => syn x other end) u) ((fun t => match t with | TKeyword KDomain => c0 | TKeyword KProblem => c1 | other => syn x other end) u)) ->
  Acc tk (bind get (fun t => match t with | TKeyword KDomain => c0 | TKeyword KProblem => c1 | other => syn x other end)) Pc ->
  VI None b0 c0 R Pc -> VI None b1 c1 R Pc ->
  VI None (bind get (fun t => match t with | TKeyword KDomain => b0 | TKeyword KProblem => b1 | other => syn x other end)) (bind get (fun t => match t with | TKeyword KDomain => c0 | TKeyword KProblem => c1 | other => syn x other end)) R Pc.
Proof. intros. apply (i_get (Some x) tk); auto. toks t; here; auto. Qed.
Lemma g_less {A} full tk x (b0 : P A) (c0 : P A) (R : A -> option token -> Prop) (Pc : A -> Prop) :
  phrase x [One (TOp OLess)] full -> hd TEOF tk = TOp OLess ->
  Acc tk (bind get (fun t => match t with | TOp OLess => c0 | other => syn x other end)) Pc ->
  VI None b0 c0 R Pc ->
  VI None (bind get (fun t => match t with | TOp OLess => b0 | other => syn x other end)) (bind get (fun t => match t with | TOp OLess => c0 | other => syn x other end)) R Pc.
Proof.
  intros Hp Ht Ha Hb. apply (i_get (Some x) tk); auto; [|toks t; here; auto].
  apply (told_one _ _ (TOp OLess) tk full); auto; [discriminate|]. intros u Hu. toks_in u; try (apply imm_syn); congruence.
Qed.
Lemma g_equal {A} full tk x (b0 : P A) (c0 : P A) (R : A -> option token -> Prop) (Pc : A -> Prop) :
  phrase x [One (TOp OEqual)] full -> hd TEOF tk = TOp OEqual ->
  Acc tk (bind get (fun t => match t with | TOp OEqual => c0 | other => syn x other end)) Pc ->
  VI None b0 c0 R Pc ->
  VI None (bind get (fun t => match t with | TOp OEqual => b0 | other => syn x other end)) (bind get (fun t => match t with | TOp OEqual => c0 | other => syn x other end)) R Pc.
Proof.
  intros Hp Ht Ha Hb. apply (i_get (Some x) tk); auto; [|toks t; here; auto].
  apply (told_one _ _ (TOp OEqual) tk full); auto; [discriminate|]. intros u Hu. toks_in u; try (apply imm_syn); congruence.
Qed.
Lemma g_lp_rp {A} tk x (b0 : P A) (b1 : P A) (c0 : P A) (c1 : P A) (R : A -> option token -> Prop) (Pc : A -> Prop) :
  told (Some x) (bind get (fun t => match t with | TPunct LParen => c0 | TPunct RParen => c1 | other => syn x other end)) Pc (fun u => imm (Some x) u ((fun t => match t with | TPunct LParen => b0 | TPunct RParen => b1 | other => syn x other end) u) ((fun t => match t with | TPunct LParen => c0 | TPunct RParen => c1 | other => syn x other end) u)) ->
  Acc tk (bind get (fun t => match t with | TPunct LParen => c0 | TPunct RParen => c1 | other => syn x other end)) Pc ->
  VI None b0 c0 R Pc -> VI None b1 c1 R Pc ->
  VI None (bind get (fun t => match t with | TPunct LParen => b0 | TPunct RParen => b1 | other => syn x other end)) (bind get (fun t => match t with | TPunct LParen => c0 | TPunct RParen => c1 | other => syn x other end)) R Pc.
Proof. intros. apply (i_get (Some x) tk); auto. toks t; here; auto. Qed.
Lemma g_ident_rp {A} tk x (b0 : string -> P A) (b1 : P A) (c0 : string -> P A) (c1 : P A) (R : A -> option token -> Prop) (Pc : A -> Prop) :
  told (Some x) (bind get (fun t => match t with | TIdent s => c0 s | TPunct RParen => c1 | other => syn x other end)) Pc (fun u => imm (Some x) u ((fun t => match t with | TIdent s => b0 s | TPunct RParen => b1 | other => syn x other end) u) ((fun t => match t with | TIdent s => c0 s | TPunct RParen => c1 | other => syn x other end) u)) ->
  Acc tk (bind get (fun t => match t with | TIdent s => c0 s | TPunct RParen => c1 | other => syn x other end)) Pc ->
  (forall s, VI None (b0 s) (c0 s) R Pc) -> VI None b1 c1 R Pc ->
  VI None (bind get (fun t => match t with | TIdent s => b0 s | TPunct RParen => b1 | other => syn x other end)) (bind get (fun t => match t with | TIdent s => c0 s | TPunct RParen => c1 | other => syn x other end)) R Pc.
Proof. intros. apply (i_get (Some x) tk); auto. toks t; here; auto. Qed.
Lemma g_kcons_rp {A} tk x (b0 : P A) (b1 : P A) (c0 : P A) (c1 : P A) (R : A -> option token -> Prop) (Pc : A -> Prop) :
  told (Some x) (bind get (fun t => match t with | TKeyword KConstraints => c0 | TPunct RParen => c1 | other => syn x other end)) Pc (fun u => imm (Some x) u ((fun t => match t with | TKeyword KConstraints => b0 | TPunct RParen => b1 | other => syn x other end) u) ((fun t => match t with | TKeyword KConstraints => c0 | TPunct RParen => c1 | other => syn x other end) u)) ->
  Acc tk (bind get (fun t => match t with | TKeyword KConstraints => c0 | TPunct RParen => c1 | other => syn x other end)) Pc ->
  VI None b0 c0 R Pc -> VI None b1 c1 R Pc ->
  VI None (bind get (fun t => match t with | TKeyword KConstraints => b0 | TPunct RParen => b1 | other => syn x other end)) (bind get (fun t => match t with | TKeyword KConstraints => c0 | TPunct RParen => c1 | other => syn x other end)) R Pc.
Proof. intros. apply (i_get (Some x) tk); auto. toks t; here; auto. Qed.
Lemma g_req_rp {A} tk x (b0 : requirement -> P A) (b1 : P A) (c0 : requirement -> P A) (c1 : P A) (R : A -> option token -> Prop) (Pc : A -> Prop) :
  told (Some x) (bind get (fun t => match t with | TReq r => c0 r | TPunct RParen => c1 | other => syn x other end)) Pc (fun u => imm (Some x) u ((fun t => match t with | TReq r => b0 r | TPunct RParen => b1 | other => syn x other end) u) ((fun t => match t with | TReq r => c0 r | TPunct RParen => c1 | other => syn x other end) u)) ->
  Acc tk (bind get (fun t => match t with | TReq r => c0 r | TPunct RParen => c1 | other => syn x other end)) Pc ->
  (forall r, VI None (b0 r) (c0 r) R Pc) -> VI None b1 c1 R Pc ->
  VI None (bind get (fun t => match t with | TReq r => b0 r | TPunct RParen => b1 | other => syn x other end)) (bind get (fun t => match t with | TReq r => c0 r | TPunct RParen => c1 | other => syn x other end)) R Pc.
Proof. intros. apply (i_get (Some x) tk); auto. toks t; here; auto. Qed.
Lemma g_and_less_rp {A} tk x (b0 : P A) (b1 : P A) (b2 : P A) (c0 : P A) (c1 : P A) (c2 : P A) (R : A -> option token -> Prop) (Pc : A -> Prop) :
  told (Some x) (bind get (fun t => match t with | TOp OAnd => c0 | TOp OLess => c1 | TPunct RParen => c2 | other => syn x other end)) Pc (fun u => imm (Some x) u ((fun t => match t with | TOp OAnd => b0 | TOp OLess => b1 | TPunct RParen => b2 | other => syn x other end) u) ((fun t => match t with | TOp OAnd => c0 | TOp OLess => c1 | TPunct RParen => c2 | other => syn x other end) u)) ->
  Acc tk (bind get (fun t => match t with | TOp OAnd => c0 | TOp OLess => c1 | TPunct RParen => c2 | other => syn x other end)) Pc ->
  VI None b0 c0 R Pc -> VI None b1 c1 R Pc -> VI None b2 c2 R Pc ->
  VI None (bind get (fun t => match t with | TOp OAnd => b0 | TOp OLess => b1 | TPunct RParen => b2 | other => syn x other end)) (bind get (fun t => match t with | TOp OAnd => c0 | TOp OLess => c1 | TPunct RParen => c2 | other => syn x other end)) R Pc.
Proof. intros. apply (i_get (Some x) tk); auto. toks t; here; auto. Qed.
Lemma g_lp_ident_rp {A} tk x (b0 : P A) (b1 : string -> P A) (b2 : P A) (c0 : P A) (c1 : string -> P A) (c2 : P A) (R : A -> option token -> Prop) (Pc : A -> Prop) :
  told (Some x) (bind get (fun t => match t with | TPunct LParen => c0 | TIdent s => c1 s | TPunct RParen => c2 | other => syn x other end)) Pc (fun u => imm (Some x) u ((fun t => match t with | TPunct LParen => b0 | TIdent s => b1 s | TPunct RParen => b2 | other => syn x other end) u) ((fun t => match t with | TPunct LParen => c0 | TIdent s => c1 s | TPunct RParen => c2 | other => syn x other end) u)) ->
  Acc tk (bind get (fun t => match t with | TPunct LParen => c0 | TIdent s => c1 s | TPunct RParen => c2 | other => syn x other end)) Pc ->
  VI None b0 c0 R Pc -> (forall s, VI None (b1 s) (c1 s) R Pc) -> VI None b2 c2 R Pc ->
  VI None (bind get (fun t => match t with | TPunct LParen => b0 | TIdent s => b1 s | TPunct RParen => b2 | other => syn x other end)) (bind get (fun t => match t with | TPunct LParen => c0 | TIdent s => c1 s | TPunct RParen => c2 | other => syn x other end)) R Pc.
Proof. intros. apply (i_get (Some x) tk); auto. toks t; here; auto. Qed.
Lemma g_not_equal {A} tk x (b0 : P A) (b1 : P A) (c0 : P A) (c1 : P A) (R : A -> option token -> Prop) (Pc : A -> Prop) :
  told (Some x) (bind get (fun t => match t with | TOp ONot => c0 | TOp OEqual => c1 | other => syn x other end)) Pc (fun u => imm (Some x) u ((fun t => match t with | TOp ONot => b0 | TOp OEqual => b1 | other => syn x other end) u) ((fun t => match t with | TOp ONot => c0 | TOp OEqual => c1 | other => syn x other end) u)) ->
  Acc tk (bind get (fun t => match t with | TOp ONot => c0 | TOp OEqual => c1 | other => syn x other end)) Pc ->
  VI None b0 c0 R Pc -> VI None b1 c1 R Pc ->
  VI None (bind get (fun t => match t with | TOp ONot => b0 | TOp OEqual => b1 | other => syn x other end)) (bind get (fun t => match t with | TOp ONot => c0 | TOp OEqual => c1 | other => syn x other end)) R Pc.
Proof. intros. apply (i_get (Some x) tk); auto. toks t; here; auto. Qed.
Lemma g_kord_kcons_rp {A} tk x (b0 : P A) (b1 : P A) (b2 : P A) (c0 : P A) (c1 : P A) (c2 : P A) (R : A -> option token -> Prop) (Pc : A -> Prop) :
  told (Some x) (bind get (fun t => match t with | TKeyword KOrdering => c0 | TKeyword KConstraints => c1 | TPunct RParen => c2 | other => syn x other end)) Pc (fun u => imm (Some x) u ((fun t => match t with | TKeyword KOrdering => b0 | TKeyword KConstraints => b1 | TPunct RParen => b2 | other => syn x other end) u) ((fun t => match t with | TKeyword KOrdering => c0 | TKeyword KConstraints => c1 | TPunct RParen => c2 | other => syn x other end) u)) ->
  Acc tk (bind get (fun t => match t with | TKeyword KOrdering => c0 | TKeyword KConstraints => c1 | TPunct RParen => c2 | other => syn x other end)) Pc ->
  VI None b0 c0 R Pc -> VI None b1 c1 R Pc -> VI None b2 c2 R Pc ->
  VI None (bind get (fun t => match t with | TKeyword KOrdering => b0 | TKeyword KConstraints => b1 | TPunct RParen => b2 | other => syn x other end)) (bind get (fun t => match t with | TKeyword KOrdering => c0 | TKeyword KConstraints => c1 | TPunct RParen => c2 | other => syn x other end)) R Pc.
Proof. intros. apply (i_get (Some x) tk); auto. toks t; here; auto. Qed.
Lemma g_domain_kw {A} tk x (b0 : P A) (b1 : P A) (b2 : P A) (b3 : P A) (b4 : P A) (b5 : P A) (b6 : P A) (b7 : P A) (c0 : P A) (c1 : P A) (c2 : P A) (c3 : P A) (c4 : P A) (c5 : P A) (c6 : P A) (c7 : P A) (R : A -> option token -> Prop) (Pc : A -> Prop) :
  told (Some x) (bind get (fun t => match t with | TKeyword KPredicates => c0 | TKeyword KFunctions => c1 | TKeyword KTask => c2 | TKeyword KMethod => c3 | TKeyword KAction => c4 | TKeyword KRequirements => c5 | TKeyword KTypes => c6 | TKeyword KConstants => c7 | other => syn x other end)) Pc (fun u => imm (Some x) u ((fun t => match t with | TKeyword KPredicates => b0 | TKeyword KFunctions => b1 | TKeyword KTask => b2 | TKeyword KMethod => b3 | TKeyword KAction => b4 | TKeyword KRequirements => b5 | TKeyword KTypes => b6 | TKeyword KConstants => b7 | other => syn x other end) u) ((fun t => match t with | TKeyword KPredicates => c0 | TKeyword KFunctions => c1 | TKeyword KTask => c2 | TKeyword KMethod => c3 | TKeyword KAction => c4 | TKeyword KRequirements => c5 | TKeyword KTypes => c6 | TKeyword KConstants => c7 | other => syn x other end) u)) ->
  Acc tk (bind get (fun t => match t with | TKeyword KPredicates => c0 | TKeyword KFunctions => c1 | TKeyword KTask => c2 | TKeyword KMethod => c3 | TKeyword KAction => c4 | TKeyword KRequirements => c5 | TKeyword KTypes => c6 | TKeyword KConstants => c7 | other => syn x other end)) Pc ->
  VI None b0 c0 R Pc -> VI None b1 c1 R Pc -> VI None b2 c2 R Pc -> VI None b3 c3 R Pc -> VI None b4 c4 R Pc -> VI None b5 c5 R Pc -> VI None b6 c6 R Pc -> VI None b7 c7 R Pc ->
  VI None (bind get (fun t => match t with | TKeyword KPredicates => b0 | TKeyword KFunctions => b1 | TKeyword KTask => b2 | TKeyword KMethod => b3 | TKeyword KAction => b4 | TKeyword KRequirements => b5 | TKeyword KTypes => b6 | TKeyword KConstants => b7 | other => syn x other end)) (bind get (fun t => match t with | TKeyword KPredicates => c0 | TKeyword KFunctions => c1 | TKeyword KTask => c2 | TKeyword KMethod => c3 | TKeyword KAction => c4 | TKeyword KRequirements => c5 | TKeyword KTypes => c6 | TKeyword KConstants => c7 | other => syn x other end)) R Pc.
Proof. intros. apply (i_get (Some x) tk); auto. toks t; here; auto. Qed.
Lemma g_problem_kw {A} tk x (b0 : P A) (b1 : P A) (b2 : P A) (b3 : P A) (b4 : P A) (c0 : P A) (c1 : P A) (c2 : P A) (c3 : P A) (c4 : P A) (R : A -> option token -> Prop) (Pc : A -> Prop) :
  told (Some x) (bind get (fun t => match t with | TKeyword KRequirements => c0 | TKeyword KObjects => c1 | TKeyword KHTN => c2 | TKeyword KGoal => c3 | TKeyword KInit => c4 | other => syn x other end)) Pc (fun u => imm (Some x) u ((fun t => match t with | TKeyword KRequirements => b0 | TKeyword KObjects => b1 | TKeyword KHTN => b2 | TKeyword KGoal => b3 | TKeyword KInit => b4 | other => syn x other end) u) ((fun t => match t with | TKeyword KRequirements => c0 | TKeyword KObjects => c1 | TKeyword KHTN => c2 | TKeyword KGoal => c3 | TKeyword KInit => c4 | other => syn x other end) u)) ->
  Acc tk (bind get (fun t => match t with | TKeyword KRequirements => c0 | TKeyword KObjects => c1 | TKeyword KHTN => c2 | TKeyword KGoal => c3 | TKeyword KInit => c4 | other => syn x other end)) Pc ->
  VI None b0 c0 R Pc -> VI None b1 c1 R Pc -> VI None b2 c2 R Pc -> VI None b3 c3 R Pc -> VI None b4 c4 R Pc ->
  VI None (bind get (fun t => match t with | TKeyword KRequirements => b0 | TKeyword KObjects => b1 | TKeyword KHTN => b2 | TKeyword KGoal => b3 | TKeyword KInit => b4 | other => syn x other end)) (bind get (fun t => match t with | TKeyword KRequirements => c0 | TKeyword KObjects => c1 | TKeyword KHTN => c2 | TKeyword KGoal => c3 | TKeyword KInit => c4 | other => syn x other end)) R Pc.
Proof. intros. apply (i_get (Some x) tk); auto. toks t; here; auto. Qed.
Lemma g_rp_number {A} tk x (b0 : P A) (b1 : number -> P A) (c0 : P A) (c1 : number -> P A) (R : A -> option token -> Prop) (Pc : A -> Prop) :
  told (Some x) (bind get (fun t => match t with | TPunct RParen => c0 | TNumber w => c1 w | other => syn x other end)) Pc (fun u => imm (Some x) u ((fun t => match t with | TPunct RParen => b0 | TNumber w => b1 w | other => syn x other end) u) ((fun t => match t with | TPunct RParen => c0 | TNumber w => c1 w | other => syn x other end) u)) ->
  Acc tk (bind get (fun t => match t with | TPunct RParen => c0 | TNumber w => c1 w | other => syn x other end)) Pc ->
  VI None b0 c0 R Pc -> (forall w, VI None (b1 w) (c1 w) R Pc) ->
  VI None (bind get (fun t => match t with | TPunct RParen => b0 | TNumber w => b1 w | other => syn x other end)) (bind get (fun t => match t with | TPunct RParen => c0 | TNumber w => c1 w | other => syn x other end)) R Pc.
Proof. intros. apply (i_get (Some x) tk); auto. toks t; here; auto. Qed.
Lemma g_v_lp_rp {A} tk x (b0 : P A) (b1 : P A) (c0 : P A) (c1 : P A) (Q : A -> list (token * N) -> option token -> Prop) (Pc : A -> Prop) :
  told (Some x) (bind get (fun t => match t with | TPunct RParen => c0 | TPunct LParen => c1 | other => syn x other end)) Pc (fun u => imm (Some x) u ((fun t => match t with | TPunct RParen => b0 | TPunct LParen => b1 | other => syn x other end) u) ((fun t => match t with | TPunct RParen => c0 | TPunct LParen => c1 | other => syn x other end) u)) ->
  Acc tk (bind get (fun t => match t with | TPunct RParen => c0 | TPunct LParen => c1 | other => syn x other end)) Pc ->
  V None b0 c0 (fun a us g1 => forall l, Q a ((TPunct RParen, l) :: us) g1) Pc -> V None b1 c1 (fun a us g1 => forall l, Q a ((TPunct LParen, l) :: us) g1) Pc ->
  V None (bind get (fun t => match t with | TPunct RParen => b0 | TPunct LParen => b1 | other => syn x other end)) (bind get (fun t => match t with | TPunct RParen => c0 | TPunct LParen => c1 | other => syn x other end)) Q Pc.
Proof. intros. apply (v_get (Some x) tk); auto. toks t; here; auto. Qed.
Lemma g_v_formula {A} tk x (b0 : P A) (b1 : P A) (b2 : P A) (b3 : P A) (b4 : P A) (b5 : P A) (b6 : P A) (b7 : P A) (b8 : string -> P A) (b9 : P A) (c0 : P A) (c1 : P A) (c2 : P A) (c3 : P A) (c4 : P A) (c5 : P A) (c6 : P A) (c7 : P A) (c8 : string -> P A) (c9 : P A) (Q : A -> list (token * N) -> option token -> Prop) (Pc : A -> Prop) :
  told (Some x) (bind get (fun t => match t with | TOp ONot => c0 | TOp OAnd => c1 | TOp OXor => c2 | TOp OOr => c3 | TOp OEqual => c4 | TOp OForAll => c5 | TOp OExists => c6 | TOp OProbabilistic => c7 | TIdent s => c8 s | TPunct RParen => c9 | other => syn x other end)) Pc (fun u => imm (Some x) u ((fun t => match t with | TOp ONot => b0 | TOp OAnd => b1 | TOp OXor => b2 | TOp OOr => b3 | TOp OEqual => b4 | TOp OForAll => b5 | TOp OExists => b6 | TOp OProbabilistic => b7 | TIdent s => b8 s | TPunct RParen => b9 | other => syn x other end) u) ((fun t => match t with | TOp ONot => c0 | TOp OAnd => c1 | TOp OXor => c2 | TOp OOr => c3 | TOp OEqual => c4 | TOp OForAll => c5 | TOp OExists => c6 | TOp OProbabilistic => c7 | TIdent s => c8 s | TPunct RParen => c9 | other => syn x other end) u)) ->
  Acc tk (bind get (fun t => match t with | TOp ONot => c0 | TOp OAnd => c1 | TOp OXor => c2 | TOp OOr => c3 | TOp OEqual => c4 | TOp OForAll => c5 | TOp OExists => c6 | TOp OProbabilistic => c7 | TIdent s => c8 s | TPunct RParen => c9 | other => syn x other end)) Pc ->
  V None b0 c0 (fun a us g1 => forall l, Q a ((TOp ONot, l) :: us) g1) Pc -> V None b1 c1 (fun a us g1 => forall l, Q a ((TOp OAnd, l) :: us) g1) Pc -> V None b2 c2 (fun a us g1 => forall l, Q a ((TOp OXor, l) :: us) g1) Pc -> V None b3 c3 (fun a us g1 => forall l, Q a ((TOp OOr, l) :: us) g1) Pc -> V None b4 c4 (fun a us g1 => forall l, Q a ((TOp OEqual, l) :: us) g1) Pc -> V None b5 c5 (fun a us g1 => forall l, Q a ((TOp OForAll, l) :: us) g1) Pc -> V None b6 c6 (fun a us g1 => forall l, Q a ((TOp OExists, l) :: us) g1) Pc -> V None b7 c7 (fun a us g1 => forall l, Q a ((TOp OProbabilistic, l) :: us) g1) Pc -> (forall s, V None (b8 s) (c8 s) (fun a us g1 => forall l, Q a ((TIdent s, l) :: us) g1) Pc) -> V None b9 c9 (fun a us g1 => forall l, Q a ((TPunct RParen, l) :: us) g1) Pc ->
  V None (bind get (fun t => match t with | TOp ONot => b0 | TOp OAnd => b1 | TOp OXor => b2 | TOp OOr => b3 | TOp OEqual => b4 | TOp OForAll => b5 | TOp OExists => b6 | TOp OProbabilistic => b7 | TIdent s => b8 s | TPunct RParen => b9 | other => syn x other end)) (bind get (fun t => match t with | TOp ONot => c0 | TOp OAnd => c1 | TOp OXor => c2 | TOp OOr => c3 | TOp OEqual => c4 | TOp OForAll => c5 | TOp OExists => c6 | TOp OProbabilistic => c7 | TIdent s => c8 s | TPunct RParen => c9 | other => syn x other end)) Q Pc.
Proof. intros. apply (v_get (Some x) tk); auto. toks t; here; auto. Qed.
Lemma p_and_ident_rp {A} tk x (b0 : P A) (b1 : string -> P A) (b2 : P A) (c0 : P A) (c1 : string -> P A) (c2 : P A) (R : A -> option token -> Prop) (Pc : A -> Prop) :
  told (Some x) (bind peek (fun t => match t with | TOp OAnd => c0 | TIdent s => c1 s | TPunct RParen => c2 | other => syn x other end)) Pc (fun u => imm (Some x) u ((fun t => match t with | TOp OAnd => b0 | TIdent s => b1 s | TPunct RParen => b2 | other => syn x other end) (peeked u)) ((fun t => match t with | TOp OAnd => c0 | TIdent s => c1 s | TPunct RParen => c2 | other => syn x other end) (peeked u)) \/ immn (Some x) u ((fun t => match t with | TOp OAnd => b0 | TIdent s => b1 s | TPunct RParen => b2 | other => syn x other end) (peeked u)) ((fun t => match t with | TOp OAnd => c0 | TIdent s => c1 s | TPunct RParen => c2 | other => syn x other end) (peeked u))) ->
  Acc tk (bind peek (fun t => match t with | TOp OAnd => c0 | TIdent s => c1 s | TPunct RParen => c2 | other => syn x other end)) Pc ->
  VI (Some (TOp OAnd)) b0 c0 R Pc -> (forall s, VI (Some (TIdent s)) (b1 s) (c1 s) R Pc) -> VI (Some (TPunct RParen)) b2 c2 R Pc ->
  VI None (bind peek (fun t => match t with | TOp OAnd => b0 | TIdent s => b1 s | TPunct RParen => b2 | other => syn x other end)) (bind peek (fun t => match t with | TOp OAnd => c0 | TIdent s => c1 s | TPunct RParen => c2 | other => syn x other end)) R Pc.
Proof. intros. apply (i_peek (Some x) tk); auto. toks t; try immp; left; auto. Qed.
Lemma p_cons {A} tk x (b0 : P A) (b1 : P A) (b2 : P A) (b3 : P A) (c0 : P A) (c1 : P A) (c2 : P A) (c3 : P A) (R : A -> option token -> Prop) (Pc : A -> Prop) :
  told (Some x) (bind peek (fun t => match t with | TPunct RParen => c0 | TOp OAnd => c1 | TOp ONot => c2 | TOp OEqual => c3 | other => syn x other end)) Pc (fun u => imm (Some x) u ((fun t => match t with | TPunct RParen => b0 | TOp OAnd => b1 | TOp ONot => b2 | TOp OEqual => b3 | other => syn x other end) (peeked u)) ((fun t => match t with | TPunct RParen => c0 | TOp OAnd => c1 | TOp ONot => c2 | TOp OEqual => c3 | other => syn x other end) (peeked u)) \/ immn (Some x) u ((fun t => match t with | TPunct RParen => b0 | TOp OAnd => b1 | TOp ONot => b2 | TOp OEqual => b3 | other => syn x other end) (peeked u)) ((fun t => match t with | TPunct RParen => c0 | TOp OAnd => c1 | TOp ONot => c2 | TOp OEqual => c3 | other => syn x other end) (peeked u))) ->
  Acc tk (bind peek (fun t => match t with | TPunct RParen => c0 | TOp OAnd => c1 | TOp ONot => c2 | TOp OEqual => c3 | other => syn x other end)) Pc ->
  VI (Some (TPunct RParen)) b0 c0 R Pc -> VI (Some (TOp OAnd)) b1 c1 R Pc -> VI (Some (TOp ONot)) b2 c2 R Pc -> VI (Some (TOp OEqual)) b3 c3 R Pc ->
  VI None (bind peek (fun t => match t with | TPunct RParen => b0 | TOp OAnd => b1 | TOp ONot => b2 | TOp OEqual => b3 | other => syn x other end)) (bind peek (fun t => match t with | TPunct RParen => c0 | TOp OAnd => c1 | TOp ONot => c2 | TOp OEqual => c3 | other => syn x other end)) R Pc.
Proof. intros. apply (i_peek (Some x) tk); auto. toks t; try immp; left; auto. Qed.
Lemma p_initial {A} tk x (b0 : P A) (b1 : P A) (b2 : P A) (b3 : P A) (c0 : P A) (c1 : P A) (c2 : P A) (c3 : P A) (R : A -> option token -> Prop) (Pc : A -> Prop) :
  told (Some x) (bind peek (fun t => match t with | TKeyword KParameters => c0 | TKeyword KSubtasks => c1 | TKeyword KOrderedSubtasks => c2 | TPunct RParen => c3 | other => syn x other end)) Pc (fun u => imm (Some x) u ((fun t => match t with | TKeyword KParameters => b0 | TKeyword KSubtasks => b1 | TKeyword KOrderedSubtasks => b2 | TPunct RParen => b3 | other => syn x other end) (peeked u)) ((fun t => match t with | TKeyword KParameters => c0 | TKeyword KSubtasks => c1 | TKeyword KOrderedSubtasks => c2 | TPunct RParen => c3 | other => syn x other end) (peeked u)) \/ immn (Some x) u ((fun t => match t with | TKeyword KParameters => b0 | TKeyword KSubtasks => b1 | TKeyword KOrderedSubtasks => b2 | TPunct RParen => b3 | other => syn x other end) (peeked u)) ((fun t => match t with | TKeyword KParameters => c0 | TKeyword KSubtasks => c1 | TKeyword KOrderedSubtasks => c2 | TPunct RParen => c3 | other => syn x other end) (peeked u))) ->
  Acc tk (bind peek (fun t => match t with | TKeyword KParameters => c0 | TKeyword KSubtasks => c1 | TKeyword KOrderedSubtasks => c2 | TPunct RParen => c3 | other => syn x other end)) Pc ->
  VI (Some (TKeyword KParameters)) b0 c0 R Pc -> VI (Some (TKeyword KSubtasks)) b1 c1 R Pc -> VI (Some (TKeyword KOrderedSubtasks)) b2 c2 R Pc -> VI (Some (TPunct RParen)) b3 c3 R Pc ->
  VI None (bind peek (fun t => match t with | TKeyword KParameters => b0 | TKeyword KSubtasks => b1 | TKeyword KOrderedSubtasks => b2 | TPunct RParen => b3 | other => syn x other end)) (bind peek (fun t => match t with | TKeyword KParameters => c0 | TKeyword KSubtasks => c1 | TKeyword KOrderedSubtasks => c2 | TPunct RParen => c3 | other => syn x other end)) R Pc.
Proof. intros. apply (i_peek (Some x) tk); auto. toks t; try immp; left; auto. Qed.
Lemma p_method {A} tk x (b0 : P A) (b1 : P A) (b2 : P A) (c0 : P A) (c1 : P A) (c2 : P A) (R : A -> option token -> Prop) (Pc : A -> Prop) :
  told (Some x) (bind peek (fun t => match t with | TKeyword KPrecondition => c0 | TKeyword KSubtasks => c1 | TKeyword KOrderedSubtasks => c2 | other => syn x other end)) Pc (fun u => imm (Some x) u ((fun t => match t with | TKeyword KPrecondition => b0 | TKeyword KSubtasks => b1 | TKeyword KOrderedSubtasks => b2 | other => syn x other end) (peeked u)) ((fun t => match t with | TKeyword KPrecondition => c0 | TKeyword KSubtasks => c1 | TKeyword KOrderedSubtasks => c2 | other => syn x other end) (peeked u)) \/ immn (Some x) u ((fun t => match t with | TKeyword KPrecondition => b0 | TKeyword KSubtasks => b1 | TKeyword KOrderedSubtasks => b2 | other => syn x other end) (peeked u)) ((fun t => match t with | TKeyword KPrecondition => c0 | TKeyword KSubtasks => c1 | TKeyword KOrderedSubtasks => c2 | other => syn x other end) (peeked u))) ->
  Acc tk (bind peek (fun t => match t with | TKeyword KPrecondition => c0 | TKeyword KSubtasks => c1 | TKeyword KOrderedSubtasks => c2 | other => syn x other end)) Pc ->
  VI (Some (TKeyword KPrecondition)) b0 c0 R Pc -> VI (Some (TKeyword KSubtasks)) b1 c1 R Pc -> VI (Some (TKeyword KOrderedSubtasks)) b2 c2 R Pc ->
  VI None (bind peek (fun t => match t with | TKeyword KPrecondition => b0 | TKeyword KSubtasks => b1 | TKeyword KOrderedSubtasks => b2 | other => syn x other end)) (bind peek (fun t => match t with | TKeyword KPrecondition => c0 | TKeyword KSubtasks => c1 | TKeyword KOrderedSubtasks => c2 | other => syn x other end)) R Pc.
Proof. intros. apply (i_peek (Some x) tk); auto. toks t; try immp; left; auto. Qed.
Lemma p_pre {A B} tk x (b0 : P B) (b1 : P B) (b2 : P B) (c0 : P B) (c1 : P B) (c2 : P B) (k K : B -> P A) (R : A -> option token -> Prop) (Pc : A -> Prop) :
  told (Some x) (bind peek (fun t => bind (match t with | TKeyword KPrecondition => c0 | TKeyword KEffect => c1 | TPunct RParen => c2 | other => syn x other end) K)) Pc (fun u => imm (Some x) u ((fun t => bind (match t with | TKeyword KPrecondition => b0 | TKeyword KEffect => b1 | TPunct RParen => b2 | other => syn x other end) k) (peeked u)) ((fun t => bind (match t with | TKeyword KPrecondition => c0 | TKeyword KEffect => c1 | TPunct RParen => c2 | other => syn x other end) K) (peeked u)) \/ immn (Some x) u ((fun t => bind (match t with | TKeyword KPrecondition => b0 | TKeyword KEffect => b1 | TPunct RParen => b2 | other => syn x other end) k) (peeked u)) ((fun t => bind (match t with | TKeyword KPrecondition => c0 | TKeyword KEffect => c1 | TPunct RParen => c2 | other => syn x other end) K) (peeked u))) ->
  Acc tk (bind peek (fun t => bind (match t with | TKeyword KPrecondition => c0 | TKeyword KEffect => c1 | TPunct RParen => c2 | other => syn x other end) K)) Pc ->
  VI (Some (TKeyword KPrecondition)) (bind b0 k) (bind c0 K) R Pc -> VI (Some (TKeyword KEffect)) (bind b1 k) (bind c1 K) R Pc -> VI (Some (TPunct RParen)) (bind b2 k) (bind c2 K) R Pc ->
  VI None (bind peek (fun t => bind (match t with | TKeyword KPrecondition => b0 | TKeyword KEffect => b1 | TPunct RParen => b2 | other => syn x other end) k)) (bind peek (fun t => bind (match t with | TKeyword KPrecondition => c0 | TKeyword KEffect => c1 | TPunct RParen => c2 | other => syn x other end) K)) R Pc.
Proof. intros. apply (i_peek (Some x) tk); auto. toks t; try immp; left; auto. Qed.
Lemma p_eff {A B} tk x (b0 : P B) (b1 : P B) (c0 : P B) (c1 : P B) (k K : B -> P A) (R : A -> option token -> Prop) (Pc : A -> Prop) :
  told (Some x) (bind peek (fun t => bind (match t with | TKeyword KEffect => c0 | TPunct RParen => c1 | other => syn x other end) K)) Pc (fun u => imm (Some x) u ((fun t => bind (match t with | TKeyword KEffect => b0 | TPunct RParen => b1 | other => syn x other end) k) (peeked u)) ((fun t => bind (match t with | TKeyword KEffect => c0 | TPunct RParen => c1 | other => syn x other end) K) (peeked u)) \/ immn (Some x) u ((fun t => bind (match t with | TKeyword KEffect => b0 | TPunct RParen => b1 | other => syn x other end) k) (peeked u)) ((fun t => bind (match t with | TKeyword KEffect => c0 | TPunct RParen => c1 | other => syn x other end) K) (peeked u))) ->
  Acc tk (bind peek (fun t => bind (match t with | TKeyword KEffect => c0 | TPunct RParen => c1 | other => syn x other end) K)) Pc ->
  VI (Some (TKeyword KEffect)) (bind b0 k) (bind c0 K) R Pc -> VI (Some (TPunct RParen)) (bind b1 k) (bind c1 K) R Pc ->
  VI None (bind peek (fun t => bind (match t with | TKeyword KEffect => b0 | TPunct RParen => b1 | other => syn x other end) k)) (bind peek (fun t => bind (match t with | TKeyword KEffect => c0 | TPunct RParen => c1 | other => syn x other end) K)) R Pc.
Proof. intros. apply (i_peek (Some x) tk); auto. toks t; try immp; left; auto. Qed.

End Shapes.
