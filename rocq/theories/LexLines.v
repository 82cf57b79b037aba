(** Lines of a token stream, and of what stands before and behind an inserted
    gap (C42). *)
From Coq Require Import String Ascii NArith ZArith Bool List Lia PeanoNat.
From Verif Require Import Base Token Lexer Errors Ast Parser AstRel ParserRel
  StrFacts SpecLex SpecMoved LexProofs LexProofs2 LexProofs3 PropsLex ParserProofs ParserStream.
Import ListNotations.
Open Scope list_scope.
Open Scope nat_scope.

Section Lines.
Context `{Unicode}.

Definition item_between (a b : N) (i : lex_out * N) : Prop :=
  match fst i with
  | LTok t => (a <= snd i <= b)%N /\ (t = TEOF -> snd i = b)
  | LErr e => (a <= le_line e <= b)%N
  | _ => True
  end.
Lemma count_app (a b : string) : count_nl (a ++ b)%string = (count_nl a + count_nl b)%N.
Proof. apply count_nl_app. Qed.
Lemma stream_between program : forall n st, History program st -> (line st + count_nl (rest st) = 1 + count_nl program)%N ->
  Forall (item_between (line st) (1 + count_nl program)) (stream n st).
Proof.
  induction n as [|n IH]; intros st Hh El; [constructor|]. cbn [stream].
  destruct (get_token st) as [o st'] eqn:E. unfold get_token in E.
  assert ((forall q, o <> LPanic q) -> (line st <= line st' /\ line st' + count_nl (rest st') = 1 + count_nl program)%N) as Hstep.
  { intros Hp. destruct (lex_step _ _ _ _ E Hp) as (g & s & Er & _ & _ & _ & Hl & x & Ex & Hx).
    rewrite Er, Ex, !count_app, (count_nl_none x Hx) in El. lia. }
  destruct o as [t|e|p|]; [| |constructor; [exact I|constructor]|constructor; [exact I|constructor]].
  - destruct Hstep as [H1 H2]; [discriminate|]. constructor.
    + unfold item_between. cbn [fst snd]. split; [lia|]. intros ->.
      destruct (line_of_token program st false _ _ Hh E ltac:(discriminate)) as (b & g & s & Ep & _ & _ & _ & Hl & t0 & r & Hsp & Et & Er).
      rewrite <- Et in Hsp. inversion Hsp; subst; try contradiction; rewrite Hl, ?app_nil_r_s; reflexivity.
    + assert (History program st') as Hh' by (eapply h_step; eauto; discriminate).
      specialize (IH st' Hh' H2). eapply Forall_impl; [|exact IH]. intros [o x]. unfold item_between. cbn [fst snd]. destruct o; intros; auto; intuition lia.
  - constructor; [|constructor]. unfold item_between. cbn [fst snd].
    destruct (line_of_token program st false _ _ Hh E ltac:(discriminate)) as (b & g & s & Ep & Er & _ & _ & Hl & He).
    destruct Hstep as [H1 H2]; [discriminate|]. rewrite He, <- Hl. lia.
Qed.
Lemma document_between s n : Forall (item_between 1 (1 + count_nl s)) (stream n (lex_new s)).
Proof. apply (stream_between s n (lex_new s)); [constructor|reflexivity]. Qed.
Lemma later_between s ln n : (1 <= ln)%N -> Forall (item_between ln (ln + count_nl s)) (stream n (mkL s ln)).
Proof.
  intros Hl. replace ln with (1 + (ln - 1))%N at 3 by lia. rewrite stream_shift. pose proof (document_between s n) as Hd.
  apply Forall_forall. intros i Hi. apply in_map_iff in Hi as ([o x] & <- & Hi). rewrite Forall_forall in Hd. specialize (Hd _ Hi).
  remember (1 + count_nl s)%N as b eqn:Eb. unfold item_between in *.
  destruct o as [t|[? ? ?]| |]; cbn in Hd |- *; auto; [|lia]. destruct Hd as [H1 H2]. split; [lia|]. intros Et. specialize (H2 Et). lia.
Qed.

(** Before the gap nothing moves, behind it everything moves by its line breaks. *)
Lemma insert_gap_moved q w s : clean q -> str_last delimiter q -> Gap w ->
  streams_rel (moved (1 + count_nl q) (count_nl w)) (lex_new (q ++ s)) (lex_new (q ++ w ++ s)).
Proof.
  intros Hc Hl Hw.
  destruct (stream_prefix (S (String.length q)) q 1%N) as (hd & stop & ln' & Hst); auto.
  (* the head lies in [q], and [ln'] is the line at its end *)
  assert (Forall (item_between 1 (1 + count_nl q)) hd) as Hhd.
  { pose proof (document_between q (length hd)) as Hd. unfold lex_new in Hd. specialize (Hst ""%string (length hd)).
    rewrite app_nil_r_s in Hst. rewrite Hst in Hd. rewrite firstn_app, Nat.sub_diag, firstn_all in Hd. cbn [firstn] in Hd.
    rewrite app_nil_r in Hd. exact Hd. }
  assert (stop = false -> ln' = 1 + count_nl q)%N as Hln.
  { intros ->. pose proof (document_between q (S (length hd))) as Hd. unfold lex_new in Hd. specialize (Hst ""%string (S (length hd))).
    rewrite app_nil_r_s in Hst. rewrite Hst in Hd. rewrite firstn_app, firstn_all2 in Hd by lia.
    replace (S (length hd) - length hd) with 1 in Hd by lia. apply Forall_app in Hd as [_ Hd]. cbn [stream firstn] in Hd.
    apply Forall_inv in Hd. destruct Hd as [_ He]. exact (He eq_refl). }
  assert (forall n, stream n (lex_new (q ++ w ++ s)) = firstn n (hd ++ if stop then [] else map (shift_item (count_nl w)) (stream n (mkL s ln')))) as E.
  { intros n. unfold lex_new. rewrite Hst. destruct stop; [reflexivity|]. do 2 f_equal.
    rewrite <- stream_shift. destruct n as [|n]; [reflexivity|]. cbn [stream].
    rewrite (get_token_gap (mkL (w ++ s) ln') (mkL s (ln' + count_nl w))); [reflexivity|]. exists w; auto. }
  intros n. rewrite E. unfold lex_new. rewrite Hst. 
  assert (forall (R : lex_out * N -> lex_out * N -> Prop) k l l', Forall2 R l l' -> Forall2 R (firstn k l) (firstn k l')) as Hfirst.
  { intros R k l l' Hf. revert k. induction Hf; intros [|k]; cbn; auto. }
  apply Hfirst, Forall2_app.
  - remember (1 + count_nl q)%N as b eqn:Eb. clear -Hhd. induction Hhd as [|[o x] l Hx Hl IH]; constructor; auto. unfold item_between in Hx. cbn [fst snd] in Hx.
    split; cbn [fst snd]; destruct o as [t|[t lx ln]|p|]; try constructor; cbn in *; unfold moved; intuition lia.
  - destruct stop; [constructor|]. rewrite (Hln eq_refl). pose proof (later_between s (1 + count_nl q) n ltac:(lia)) as Hb.
    remember (1 + count_nl q)%N as b eqn:Eb. clear -Hb. induction Hb as [|[o x] l Hx Hl IH]; constructor; auto. unfold item_between in Hx. cbn [fst snd] in Hx.
    split; cbn [fst snd shift_item]; destruct o as [t|[t lx ln]|p|]; cbn in *; try constructor; unfold moved; intuition lia.
Qed.
End Lines.
