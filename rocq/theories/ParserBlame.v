(** Texts for the token sequences of ParserPrefix, and the result for whole
    documents. *)
From Coq Require Import String Ascii NArith ZArith Bool List Lia PeanoNat.
From Verif Require Import Base Token Lexer Errors Ast Parser StrFacts SpecLex LexProofs LexProofs2 LexProofs3
  ParserProofs AstRel ParserStream PropsLex PrintText ParserPrefix ParserShapes ParserPrefix2 SpecBlame SpecExpect.
Import ListNotations.
Open Scope list_scope.
Open Scope nat_scope.

Section Blame.
Context `{Unicode}.

(** [z] may follow a token that was followed by [r]. *)
Definition follows (r z : string) : Prop :=
  exists c u, z = String c u /\ (delimiter c \/ exists v, r = String c v).
Lemma follows_word_end r z : word_end r -> str_last delimiter r -> follows r z -> word_end z.
Proof.
  intros Hw Hl (c & u & -> & [Hd|(v & ->)]); [left; exact Hd|].
  destruct Hw as [Hd|[Hw ->]]; [left; exact Hd|]. simpl in Hl. exfalso. eapply word_byte_not_delimiter; eauto.
Qed.
Lemma follows_not (Q : ascii -> Prop) r z : (forall c, delimiter c -> Q c) ->
  (forall c v, r = String c v -> Q c) -> follows r z -> forall c v, z = String c v -> Q c.
Proof. intros Hd Hr (c & u & -> & [Hc|(v & E)]) d w Ed; injection Ed as -> ->; eauto. Qed.

Lemma no_empty r : word_end r -> str_last delimiter r -> ~ bare_start r.
Proof.
  destruct r as [|c r]; [auto|]. intros Hw Hl (Hb & _). destruct Hw as [Hd|[_ ->]].
  - eapply word_byte_not_delimiter; eauto.
  - simpl in Hl. eapply word_byte_not_delimiter; eauto.
Qed.

Ltac delim := unfold delimiter, ws; intros;
  repeat match goal with Hx : _ \/ _ |- _ => destruct Hx end; subst; try discriminate.
Lemma spells_first s t r : Spells s t r -> t <> TEOF -> str_last delimiter s ->
  exists x, s = (x ++ r)%string /\ forall z, follows r z -> Spells (x ++ z) t z.
Proof.
  assert (forall z, ~ starts_with "=" z <-> forall c v, z = String c v -> c <> "="%char) as Heq.
  { intros [|c z]; simpl; split; intros; try congruence; try tauto. intros E. eapply H0; eauto. }
  assert (forall z, ~ starts_with "." z <-> forall c v, z = String c v -> c <> "."%char) as Hdot.
  { intros [|c z]; simpl; split; intros; try congruence; try tauto. intros E. eapply H0; eauto. }
  assert (forall z, ~ starts_digit z <-> forall c v, z = String c v -> is_digit c <> true) as Hdig.
  { intros [|c z]; simpl; split; intros; try congruence; try tauto. eapply H0; eauto. }
  intros Hs Ht Hl. destruct Hs;
    try match goal with Hx : word_at _ _ _ |- _ => destruct Hx as (-> & Hw & He) end.
  - congruence.
  - exists "("%string. split; [reflexivity|]. intros. constructor.
  - exists ")"%string. split; [reflexivity|]. intros. constructor.
  - exists "-"%string. split; [reflexivity|]. intros. constructor.
  - exists "<"%string. split; [reflexivity|]. intros z Hz. constructor. rewrite Heq in *.
    revert Hz. apply follows_not; auto. delim.
  - exists ">"%string. split; [reflexivity|]. intros z Hz. constructor. rewrite Heq in *.
    revert Hz. apply follows_not; auto. delim.
  - exists "<="%string. split; [reflexivity|]. intros. constructor.
  - exists ">="%string. split; [reflexivity|]. intros. constructor.
  - exists "="%string. split; [reflexivity|]. intros. constructor.
  - exists (String "?" w). split; [reflexivity|]. intros z Hz. cbn [append]. constructor; auto.
    repeat split; auto. eapply follows_word_end; eauto.
    change (String "?" (w ++ r)) with (String "?" w ++ r)%string in Hl. eapply str_last_suffix; eauto.
  - exists (String ":" w). split; [reflexivity|]. intros z Hz. cbn [append]. eapply sp_colon; [|eassumption].
    repeat split; auto. eapply follows_word_end; eauto.
    change (String ":" (w ++ r)) with (String ":" w ++ r)%string in Hl. eapply str_last_suffix; eauto.
  - exists d. split; [reflexivity|]. intros z Hz. constructor; auto.
    + rewrite Hdig in *. revert Hz. apply follows_not; auto. delim.
    + rewrite Hdot in *. revert Hz. apply follows_not; auto. delim.
  - exists (d ++ String "." e)%string. split; [rewrite app_assoc_s; reflexivity|]. intros z Hz.
    rewrite app_assoc_s. cbn [append]. constructor; auto.
    rewrite Hdig in *. revert Hz. apply follows_not; auto. delim.
  - exists w. split; [reflexivity|]. intros z Hz.
    eapply sp_word; [|destruct w; [|eassumption]|eassumption].
    + repeat split; auto. eapply follows_word_end; eauto. eapply str_last_suffix; eauto.
    + exfalso. eapply no_empty; eauto.
  - exists w. split; [reflexivity|]. intros z Hz.
    eapply sp_ident; [|destruct w; [|eassumption]|eassumption|eassumption].
    + repeat split; auto. eapply follows_word_end; eauto. eapply str_last_suffix; eauto.
    + exfalso. eapply no_empty; eauto.
Qed.

(** The tokens read from a document are read again from the same text followed
    by a delimiter. *)
Lemma reads_again ts st st' : Reads st ts st' -> noeof ts -> str_last delimiter (rest st) ->
  exists q, rest st = (q ++ rest st')%string /\
    forall c z, delimiter c -> Reads (mkL (q ++ String c z) (line st)) ts (mkL (String c z) (line st')).
Proof.
  intros Hr. induction Hr as [st|st t st1 ts st2 E Hr IH]; intros Hn Hl.
  - exists ""%string. split; [reflexivity|]. intros. constructor.
  - inversion Hn as [|? ? Ht Hn']; subst. simpl in Ht.
    apply get_token_spec in E as (g & s & Er & Hg & Hs & El).
    rewrite Er in Hl. apply str_last_suffix in Hl.
    destruct (spells_first _ _ _ Hs Ht Hl) as (x & -> & Hz). apply str_last_suffix in Hl.
    destruct (IH Hn' Hl) as (q & Eq & Hq). exists (g ++ x ++ q)%string. split.
    + rewrite Er, Eq, !app_assoc_s. reflexivity.
    + intros c z Hc. apply (rd_cons _ t (mkL (q ++ String c z) (line st1))); [|apply Hq; auto].
      apply get_token_spec. exists g, (x ++ q ++ String c z)%string. cbn [rest line]. split; [rewrite !app_assoc_s; reflexivity|].
      split; auto. split; auto. apply Hz. destruct q as [|d q].
      * exists c, z. auto.
      * exists d, (q ++ String c z)%string. split; [reflexivity|]. right. exists (q ++ rest st2)%string. exact Eq.
Qed.

(** One blank after each token. *)
Lemma reads_printed toks ln : Forall printable toks ->
  exists z ts st, map fst ts = toks /\ Reads (mkL (String " " z) ln) ts st.
Proof.
  intros Hp. assert (exists l, well_written l /\ map (fun e => fst (fst e)) l = toks) as (l & Hw & El).
  { induction Hp as [|t toks Ht Hp (l & Hw & El)]; [exists []; split; [constructor|reflexivity]|].
    destruct (printable_written t Ht) as (x & Hx). exists ((t, x, " "%string) :: l). split.
    - constructor; auto. split; auto. split; [|simpl; unfold ws; auto]. apply gap_ws; [unfold ws; auto|constructor].
    - simpl. congruence. }
  assert (Gap " ") as Hg by (apply gap_ws; [unfold ws; auto|constructor]).
  destruct (written_gap_reads l " " ln Hw Hg) as (g' & ln' & Hr & _).
  exists (text_of l), (lines_of (ln + count_nl " ") l), (mkL g' ln'). split; [|exact Hr].
  rewrite <- El. generalize (ln + count_nl " ")%N. clear. induction l as [|[[t x] g] l IH]; intros k; simpl; auto. rewrite IH. auto.
Qed.

(** [k] line breaks. *)
Fixpoint breaks (k : nat) : string := match k with O => ""%string | S k' => String "010" (breaks k') end.
Lemma breaks_gap k : Gap (breaks k).
Proof. induction k; simpl; [constructor|]. apply gap_ws; auto. unfold ws; auto. Qed.
Lemma breaks_count k : count_nl (breaks k) = N.of_nat k.
Proof.
  induction k; [reflexivity|]. cbn [breaks count_nl]. rewrite IHk, Nnat.Nat2N.inj_succ.
  change (Ascii.eqb "010" "010") with true. cbn iota. lia.
Qed.
Definition padding (k : N) : string := String " " (breaks (N.to_nat k)).
Lemma padding_gap k : Gap (padding k).
Proof. apply gap_ws; [unfold ws; auto|apply breaks_gap]. Qed.
Lemma padding_count k : count_nl (padding k) = k.
Proof. unfold padding. cbn [count_nl]. rewrite breaks_count. change (Ascii.eqb " " "010") with false. cbn iota. lia. Qed.

(** The same tokens on the same lines can be written so that anything may
    follow after a blank. *)
Lemma reads_rewritten ts st st' : Reads st ts st' -> noeof ts ->
  exists q, forall z, Reads (mkL (String " " (q ++ z)) (line st)) ts (mkL (String " " z) (line st')).
Proof.
  intros Hr. induction Hr as [st|st t st1 ts st2 E Hr IH]; intros Hn.
  - exists ""%string. intros. constructor.
  - inversion Hn as [|? ? Ht Hn']; subst. simpl in Ht. destruct (IH Hn') as (q & Hq).
    assert (printable t) as Hp by (pose proof (C07_content _ _ _ E) as Hc; destruct t; simpl in *; auto; congruence).
    destruct (printable_written t Hp) as (x & Hx).
    apply get_token_spec in E as (g & s & Er & Hg & Hs & El).
    exists (breaks (N.to_nat (count_nl g)) ++ x ++ String " " q)%string. intros z.
    apply (rd_cons _ t (mkL (String " " (q ++ z)) (line st1))); [|apply Hq].
    apply get_token_spec. exists (padding (count_nl g)), (x ++ String " " (q ++ z))%string.
    cbn [rest line]. split; [unfold padding; cbn [append]; rewrite !app_assoc_s; reflexivity|].
    split; [apply padding_gap|]. split.
    + apply written_spells; auto. unfold delimiter, ws; auto.
    + rewrite padding_count. exact El.
Qed.

(** What [parse] ends with, besides a tree. *)
Definition fails (n : nat) (program : string) (f : failure) : Prop :=
  match f with inl e => parse n program = Err e | inr p => parse n program = Panic p end.

Lemma parse_raise n program f : parse_doc n (lex_new program) = raise f <-> fails n program f.
Proof.
  unfold fails, parse. destruct f as [e|p]; destruct (parse_doc n (lex_new program)); cbn [raise]; split; intros E; congruence.
Qed.

(** After [ts], the tokens [toks] make a document accepted. *)
Definition completes (ts : list (token * N)) (toks : list token) : Prop :=
  Forall printable toks /\ forall program' st' us st1' , Reads (lex_new program') ts st' ->
    map fst us = toks -> Reads st' us st1' -> exists a m, parse m program' = Ok a.
(** After [ts], the item [it] makes a document rejected with [f]. *)
Definition rejects (ts : list (token * N)) (it : lex_out * N) (f : failure) : Prop :=
  forall program' st' m, Reads (lex_new program') ts st' -> item st' = it -> parse m program' = OutOfFuel \/ fails m program' f.
Lemma parse_blame n program f : fails n program f ->
  exists ts st, Reads (lex_new program) ts st /\ noeof ts /\ blames f (fst (item st)) (snd (item st))
    /\ rejects ts (item st) f
    /\ (exists toks, completes ts toks)
    /\ forall x, expects f = Some x -> exists l full, phrase x l full
       /\ (forall u, named l u -> printable u -> exists toks, completes ts (u :: toks))
       /\ (full = All -> forall u k, ~ named l u -> exists f', rejects ts (LTok u, k) f').
Proof.
  intros Hf. apply parse_raise in Hf. assert (Hv := doc_v n (n + 2) (le_n _) (lex_new program) ltac:(discriminate)).
  rewrite Hf in Hv.
  assert (Vfail None (parse_doc (n + 2)) PT (lex_new program) f) as (ts & st & H1 & _ & H2 & H3 & H4 & (toks & H5) & H6).
  { destruct f; exact Hv. }
  assert (forall it f', Fin None (parse_doc (n + 2)) (lex_new program) ts it f' -> rejects ts it f') as Hrej.
  { intros it f' Hfin program' st' m Hr Hi.
    assert (fails (n + 2) program' f') as Hb.
    { apply parse_raise. exact (Hfin (lex_new program') st' ltac:(reflexivity) Hr Hi). }
    assert (parse (n + 2) program' <> OutOfFuel) as Hn by (destruct f'; cbn [fails] in Hb; congruence).
    destruct (Nat.le_gt_cases (n + 2) m) as [Hm|Hm].
    + right. assert (E := parse_mono (n + 2) m program' Hm Hn). destruct f'; cbn [fails] in *; congruence.
    + destruct (parse m program') eqn:E; auto; right;
        assert (E' := parse_mono m (n + 2) program' ltac:(lia) ltac:(congruence)); destruct f'; cbn [fails] in *; congruence. }
  assert (forall toks, Compl None (parse_doc (n + 2)) PT (lex_new program) ts toks -> completes ts toks) as Hcom.
  { intros toks' (Hp & Hc). split; auto. intros program' st' us st1' Hr Eu Hu.
    destruct (Hc (lex_new program') st' us st1' ltac:(reflexivity) Hr Eu Hu) as (a & _ & Ea).
    exists a, (n + 2). unfold parse. rewrite Ea. reflexivity. }
  exists ts, st. split; auto. split; auto. split; auto. split; [auto|]. split; [eauto|].
  intros x Ex. rewrite Ex in H6. cbn [Says] in H6. destruct H6 as (l & full & Hp & Hn & Ha). exists l, full. split; auto. split.
  - intros u Hu Hq. destruct (Hn u Hu Hq) as (tk & Hc). eauto.
  - intros Hfull u k Hu. destruct (Ha Hfull u k Hu) as (f' & _ & Hx). eauto.
Qed.

Lemma any_line s l l' : streams_rel (fun _ _ => True) (mkL s l) (mkL s l').
Proof.
  assert (forall s l l' n, Forall2 (item_rel (fun _ _ => True)) (stream n (mkL s l)) (stream n (mkL s l'))) as Hx.
  2: { intros n. apply Hx. }
  clear. intros s l l' n. revert s l l'. induction n as [|n IH]; intros s l l'; cbn [stream]; [constructor|].
  unfold get_token. assert (E := lex_shift false s 0 l). assert (E' := lex_shift false s 0 l'). rewrite !N.add_0_l in E, E'.
  rewrite E, E'. destruct (lex false (mkL s 0)) as [o [s1 l1]]. cbn [fst snd]. unfold shift_st. cbn [rest].
  destruct o as [t|[t lx ln]|y|]; cbn [shift_out]; constructor; auto; split; auto; constructor; auto.
Qed.
Lemma blank_rel s l st : rest st = s -> streams_rel (fun _ _ => True) (mkL (String " " s) l) st.
Proof.
  intros <- n. destruct st as [s k]. cbn [rest]. assert (Hx := any_line s l k n). destruct n as [|n]; [constructor|].
  cbn [stream] in *. unfold get_token in *. change (String " " s) with (String " " "" ++ s)%string.
  rewrite lex_gap by (apply gap_ws; [unfold ws; auto|constructor]). cbn [count_nl].
  change (Ascii.eqb " " "010") with false. cbn iota. rewrite N.add_0_l, N.add_0_r. exact Hx.
Qed.
Lemma ok_any n p p' a : streams_rel (fun _ _ => True) (lex_new p) (lex_new p') -> parse n p' = Ok a ->
  exists a', parse n p = Ok a'.
Proof.
  intros Hs E. assert (Hr := parse_stream (fun _ _ => True) n p p' I Hs). rewrite E in Hr.
  inversion Hr; subst; eauto.
Qed.

Lemma rejected_not_viable program f ts st t c : Reads (lex_new program) ts st -> noeof ts ->
  rejects ts (LTok t, (c + line st)%N) f -> ~ viable (map fst ts ++ [t]).
Proof.
  intros Hr Hn Hfin (p' & us & more & st' & n' & a & Hr' & Em & E).
  assert (exists p st1, Reads (lex_new p) ts st1 /\ item st1 = (LTok t, (c + line st)%N)
            /\ streams_rel (fun _ _ => True) (lex_new p) (lex_new p')) as (p & st1 & H1 & H2 & H3).
  { rewrite <- app_assoc in Em. cbn [app] in Em. apply map_eq_app in Em as (u1 & u2 & -> & E1 & E2).
    apply reads_app_inv in Hr' as (s1 & R1 & R2). destruct u2 as [|[t' l] u2]; [discriminate|]. cbn [map fst] in E2.
    injection E2 as -> E2. apply reads_cons_inv in R2 as (s2 & G2 & <- & R2).
    destruct (reads_rewritten _ _ _ Hr Hn) as (q & Hq). unfold item in *.
    assert (forall z, Reads (lex_new (String " " (q ++ z))) ts (mkL (String " " z) (line st))) as Hq' by (intros z; apply (Hq z)).
    destruct t; try (
      match goal with |- context [LTok ?t] => assert (printable t) as Hp by
        (pose proof (C07_content _ _ _ G2) as Hc; simpl in *; auto; congruence) end;
      destruct (printable_written _ Hp) as (x & Hx);
      pose (z := (breaks (N.to_nat c) ++ x ++ String " " (rest s2))%string);
      assert (get_token (mkL (String " " z) (line st)) = (LTok _, mkL (String " " (rest s2)) (c + line st)%N)) as Ez
       by (apply get_token_spec; exists (padding c), (x ++ String " " (rest s2))%string; cbn [rest line];
           split; [unfold padding, z; cbn [append]; rewrite ?app_assoc_s; reflexivity|]; split; [apply padding_gap|];
           split; [apply written_spells; [exact Hx|unfold delimiter, ws; auto]|rewrite padding_count; first [reflexivity|apply N.add_comm]]);
      exists (String " " (q ++ z)), (mkL (String " " z) (line st)); split; [apply Hq'|]; split;
      [rewrite Ez; reflexivity|];
      eapply reads_streams; [auto|exact (reads_app _ _ _ _ _ (Hq' z) (rd_cons _ _ _ _ _ Ez (rd_nil _)))|
         exact (reads_app _ _ _ _ _ R1 (rd_cons _ _ _ _ _ G2 (rd_nil _)))|rewrite !map_app, E1; reflexivity|apply blank_rel; reflexivity]).
    pose (z := breaks (N.to_nat c)).
    exists (String " " (q ++ z)), (mkL (String " " z) (line st)). split; [apply Hq'|]. change (String " " z) with (padding c). split.
    - rewrite gap_eof by apply padding_gap. cbn [fst snd line]. rewrite padding_count. f_equal. lia.
    - eapply reads_streams; [auto|apply Hq'|exact R1|auto|]. destruct s1 as [r1 k1].
      apply get_token_spec in G2 as (g2 & x2 & Er2 & Hg2 & Hs2 & El2). cbn [rest] in Er2. inversion Hs2; subst.
      + rewrite app_nil_r_s. apply eof_streams; auto. apply padding_gap.
      + match goal with Hx : In _ (colon_text TEOF) |- _ => destruct Hx end.
      + match goal with Hx : In _ (bare_text TEOF) |- _ => destruct Hx end. }
  destruct (ok_any n' p p' a H3 E) as (a' & Ea). destruct (Hfin p st1 n' H1 H2) as [Hx|Hx]; [congruence|].
  destruct f; cbn [fails] in Hx; congruence.
Qed.
Lemma not_viable program f ts st t : Reads (lex_new program) ts st -> noeof ts ->
  fst (item st) = LTok t -> rejects ts (item st) f -> ~ viable (map fst ts ++ [t]).
Proof.
  intros Hr Hn Ht Hfin. unfold item in *. cbn [fst] in Ht. destruct (get_token st) as [o st2] eqn:Eg. cbn [fst snd] in *. subst o.
  apply get_token_spec in Eg as (g & s & Er & Hg & Hs & El).
  apply (rejected_not_viable program f ts st t (count_nl g)); auto. rewrite N.add_comm, <- El. exact Hfin.
Qed.
End Blame.
