(** How long an exported text is (proofs for C83). *)
From Coq Require Import String Ascii NArith ZArith Bool List Lia PeanoNat.
From Verif Require Import Base Token Lexer Errors Ast Parser Api Json SpecLex LexProofs LexProofs2 SpecGrammar GrammarTop StrFacts.
Import ListNotations.
Open Scope string_scope.
Open Scope list_scope.
Open Scope nat_scope.

(** ** The text of a value *)
Fixpoint nodes (j : json) : nat :=
  match j with
  | JArr l => S (list_sum (map nodes l))
  | JObj fs => S (list_sum (map (fun f => nodes (snd f)) fs))
  | _ => 1
  end.
Fixpoint within (M : nat) (j : json) : Prop :=
  match j with
  | JNull => True
  | JStr s => String.length s <= M
  | JInt z => String.length (show_Z z) <= M
  | JReal t => String.length t <= M
  | JArr l => (fix all l := match l with [] => True | j :: l' => within M j /\ all l' end) l
  | JObj fs => (fix all l := match l with [] => True | f :: l' => (String.length (fst f) <= M /\ within M (snd f)) /\ all l' end) fs
  end.
Lemma within_arr M l : within M (JArr l) <-> Forall (within M) l.
Proof.
  cbn [within]. induction l as [|j l IH]; [split; auto|]. split.
  - intros [Hj Hl]. constructor; auto. apply IH. exact Hl.
  - intros Hf. inversion Hf; subst. split; auto. apply IH. auto.
Qed.
Lemma within_obj M l : within M (JObj l) <-> Forall (fun f => String.length (fst f) <= M /\ within M (snd f)) l.
Proof.
  cbn [within]. induction l as [|j l IH]; [split; auto|]. split.
  - intros [Hj Hl]. constructor; auto. apply IH. exact Hl.
  - intros Hf. inversion Hf; subst. split; auto. apply IH. auto.
Qed.
Section Ind.
Variable P : json -> Prop.
Hypothesis Hnull : P JNull.
Hypothesis Hstr : forall s, P (JStr s).
Hypothesis Hint : forall z, P (JInt z).
Hypothesis Hreal : forall t, P (JReal t).
Hypothesis Harr : forall l, Forall P l -> P (JArr l).
Hypothesis Hobj : forall fs, Forall (fun f => P (snd f)) fs -> P (JObj fs).
Fixpoint json_all (j : json) : P j :=
  match j with
  | JNull => Hnull | JStr s => Hstr s | JInt z => Hint z | JReal t => Hreal t
  | JArr l => Harr l ((fix all l : Forall P l := match l with [] => Forall_nil _ | j :: l' => Forall_cons j (json_all j) (all l') end) l)
  | JObj fs => Hobj fs ((fix all l : Forall (fun f => P (snd f)) l :=
                           match l with [] => Forall_nil _ | f :: l' => Forall_cons f (json_all (snd f)) (all l') end) fs)
  end.
End Ind.
Lemma list_sum_c a l : list_sum (a :: l) = a + list_sum l. Proof. reflexivity. Qed.
Lemma nodes_pos j : 1 <= nodes j. Proof. destruct j; cbn [nodes]; lia. Qed.

Lemma escape_len s : String.length (escape s) <= 6 * String.length s.
Proof.
  induction s as [|c s IH]; cbn [escape]; auto. rewrite app_length_s. cbn [String.length].
  assert (String.length (escape_char c) <= 6); [|lia]. unfold escape_char.
  repeat (match goal with |- context [if ?b then _ else _] => destruct b end; [cbn; lia|]). cbn; lia.
Qed.
Lemma quoted_len s : String.length (quoted s) <= 6 * String.length s + 2.
Proof. unfold quoted. rewrite !app_length_s. pose proof (escape_len s). cbn [String.length]. lia. Qed.
Lemma blanks_len n : String.length (blanks n) = 2 * n.
Proof. induction n as [|n IH]; auto. cbn [blanks]. rewrite app_length_s, IH. cbn [String.length]. lia. Qed.
Lemma break_len n : String.length (break n) = 1 + 2 * n.
Proof. unfold break. cbn [String.length]. rewrite blanks_len. lia. Qed.

(** With [n] levels around it. *)
Lemma text_len M D : forall j n, within M j -> n + nodes j <= D ->
  String.length (json_text n j) + (6 * M + 2 * D + 8) <= nodes j * (12 * M + 4 * D + 20).
Proof.
  intros j. set (C := 12 * M + 4 * D + 20). revert j.
  apply (json_all (fun j => forall n, within M j -> n + nodes j <= D ->
    String.length (json_text n j) + (6 * M + 2 * D + 8) <= nodes j * C)).
  - intros n _ _. cbn [json_text nodes String.length]. lia.
  - intros s n Hw _. cbn [json_text nodes within] in *. pose proof (quoted_len s). lia.
  - intros z n Hw _. cbn [json_text nodes within] in *. lia.
  - intros z n Hw _. cbn [json_text nodes within] in *. lia.
  - intros l Hl n Hw HD. apply within_arr in Hw. destruct l as [|j l]; [cbn [json_text nodes String.length map list_sum fold_right]; lia|].
    assert (forall l, Forall (fun j => forall n, within M j -> n + nodes j <= D -> String.length (json_text n j) + (6 * M + 2 * D + 8) <= nodes j * C) l ->
      Forall (within M) l -> n + S (list_sum (map nodes l)) <= D ->
      String.length ((fix more (l : list json) : string :=
          match l with
          | [] => break n ++ "]"
          | j' :: l' => "," ++ break (S n) ++ json_text (S n) j' ++ more l'
          end%string) l) <= list_sum (map nodes l) * C + (2 * D + 2)) as Hm.
    { clear. induction l as [|j l IH]; intros Hl Hw HD.
      - rewrite app_length_s, break_len. cbn [String.length map] in *. lia.
      - inversion Hl as [|? ? Hj Hl']; inversion Hw as [|? ? Wj Wl]; subst. cbn [map] in *. rewrite list_sum_c in *.
        rewrite !app_length_s, break_len. specialize (Hj (S n) Wj ltac:(lia)). specialize (IH Hl' Wl ltac:(lia)). cbn [String.length] in *. lia. }
    inversion Hl as [|? ? Hj Hl']; inversion Hw as [|? ? Wj Wl]; subst. cbn [json_text nodes map] in *. rewrite list_sum_c in *.
    specialize (Hm l Hl' Wl ltac:(lia)). specialize (Hj (S n) Wj ltac:(lia)). rewrite !app_length_s, break_len.
    cbn [String.length] in *. lia.
  - intros l Hl n Hw HD. apply within_obj in Hw. destruct l as [|[k j] l]; [cbn [json_text nodes String.length map list_sum fold_right]; lia|].
    assert (forall l, Forall (fun f => forall n, within M (snd f) -> n + nodes (snd f) <= D -> String.length (json_text n (snd f)) + (6 * M + 2 * D + 8) <= nodes (snd f) * C) l ->
      Forall (fun f => String.length (fst f) <= M /\ within M (snd f)) l -> n + S (list_sum (map (fun f : string * json => nodes (snd f)) l)) <= D ->
      String.length ((fix more (l : list (string * json)) : string :=
          match l with
          | [] => break n ++ "}"
          | (k', j') :: l' => "," ++ break (S n) ++ quoted k' ++ ": " ++ json_text (S n) j' ++ more l'
          end%string) l) <= list_sum (map (fun f => nodes (snd f)) l) * C + (2 * D + 2)) as Hm.
    { clear. induction l as [|[k j] l IH]; intros Hl Hw HD.
      - rewrite app_length_s, break_len. cbn [String.length map] in *. lia.
      - inversion Hl as [|? ? Hj Hl']; inversion Hw as [|? ? [Wk Wj] Wl]; subst. cbn [map fst snd] in *. rewrite list_sum_c in *.
        rewrite !app_length_s, break_len. specialize (Hj (S n) Wj ltac:(lia)). specialize (IH Hl' Wl ltac:(lia)). pose proof (quoted_len k).
        cbn [String.length] in *. lia. }
    inversion Hl as [|? ? Hj Hl']; inversion Hw as [|? ? [Wk Wj] Wl]; subst. cbn [json_text nodes map fst snd] in *. rewrite list_sum_c in *.
    specialize (Hm l Hl' Wl ltac:(lia)). specialize (Hj (S n) Wj ltac:(lia)). rewrite !app_length_s, break_len. pose proof (quoted_len k).
    cbn [String.length] in *. lia.
Qed.

(** ** The values of the parts of a document *)
Section G.
Context `{Floats}.
Variable M : nat.
Hypothesis HM : 64 <= M.
Definition tok_ok (x : tok) : Prop :=
  String.length (show_Z (Z.of_N (snd x))) <= M
  /\ match fst x with
     | TIdent s => String.length s <= M
     | TNumber (Real s) => String.length (f64_text s) <= M
     | TNumber (Integer z) => String.length (show_Z z) <= M
     | _ => True
     end.
Definition ok (k : nat) (j : json) : Prop := within M j /\ nodes j <= k.
Definition oks (k : nat) (l : list json) : Prop := Forall (within M) l /\ list_sum (map nodes l) <= k.
Lemma oks_nil k : oks k []. Proof. split; [constructor|cbn; lia]. Qed.
Lemma oks_cons a b j l : ok a j -> oks b l -> oks (a + b) (j :: l).
Proof. intros [H1 H2] [H3 H4]. split; [constructor; auto|]. cbn [map]. rewrite list_sum_c. lia. Qed.
Lemma oks_app a b l l' : oks a l -> oks b l' -> oks (a + b) (l ++ l').
Proof. intros [H1 H2] [H3 H4]. split; [apply Forall_app; auto|]. rewrite map_app, list_sum_app. lia. Qed.
Lemma oks_le a b l : oks a l -> a <= b -> oks b l. Proof. intros [H1 H2] Hl. split; auto; lia. Qed.
Lemma ok_le a b l : ok a l -> a <= b -> ok b l. Proof. intros [H1 H2] Hl. split; auto; lia. Qed.
Lemma ok_arr k l : oks k l -> ok (S k) (JArr l).
Proof. intros [H1 H2]. split; [apply within_arr; auto|cbn [nodes]; lia]. Qed.
Lemma ok_str s : String.length s <= M -> ok 1 (JStr s). Proof. split; auto. Qed.
Lemma ok_null : ok 1 JNull. Proof. split; cbn; auto. Qed.
(** Members of an object. *)
Definition okf (k : nat) (l : list (string * json)) : Prop :=
  Forall (fun f => String.length (fst f) <= M /\ within M (snd f)) l /\ list_sum (map (fun f => nodes (snd f)) l) <= k.
Lemma okf_nil : okf 0 []. Proof. split; [constructor|cbn; lia]. Qed.
Lemma okf_cons a b k j l : String.length k <= 64 -> ok a j -> okf b l -> okf (a + b) ((k, j) :: l).
Proof. intros Hk [H1 H2] [H3 H4]. split; [constructor; cbn [fst snd]; auto; split; auto; lia|]. cbn [map snd]. rewrite list_sum_c. lia. Qed.
Lemma okf_app a b l l' : okf a l -> okf b l' -> okf (a + b) (l ++ l').
Proof. intros [H1 H2] [H3 H4]. split; [apply Forall_app; auto|]. rewrite map_app, list_sum_app. lia. Qed.
Lemma ok_obj k l : okf k l -> ok (S k) (JObj l).
Proof. intros [H1 H2]. split; [apply within_obj; auto|cbn [nodes]; lia]. Qed.
Ltac key := cbn [String.length]; lia.
Ltac field := apply okf_cons; [key| |].

Lemma ok_pos p : String.length (show_Z (Z.of_N p)) <= M -> ok 2 (j_pos p).
Proof. intros Hp. eapply ok_le; [apply ok_obj; field; [split; [exact Hp|apply le_n]|apply okf_nil]|cbn; lia]. Qed.
Lemma ok_untyped n : tok_ok (id (fst n) (snd n)) -> ok 4 (j_symbol (untyped n)).
Proof.
  intros [H1 H2]. cbn [fst snd id] in *. unfold j_symbol. cbn [untyped sym_name sym_pos sym_type sym_type_pos app].
  eapply ok_le; [apply ok_obj; field; [apply ok_str; exact H2|field; [apply ok_pos; exact H1|apply okf_nil]]|lia].
Qed.
Lemma ok_typed t lt n : tok_ok (id t lt) -> tok_ok (id (fst n) (snd n)) -> ok 7 (j_symbol (with_type t lt n)).
Proof.
  intros [T1 T2] [H1 H2]. cbn [fst snd id] in *. unfold j_symbol. cbn [with_type sym_name sym_pos sym_type sym_type_pos app].
  eapply ok_le; [apply ok_obj; field; [apply ok_str; exact H2|field; [apply ok_pos; exact H1|field; [apply ok_str; exact T2|
    field; [apply ok_pos; exact T1|apply okf_nil]]]]|lia].
Qed.
Lemma ids_untyped ns : Forall tok_ok (ids ns) -> oks (4 * length (ids ns)) (map j_symbol (map untyped ns)).
Proof.
  induction ns as [|n ns IH]; intros Hf; [apply oks_nil|]. cbn [ids map] in *. inversion Hf; subst.
  eapply oks_le; [apply oks_cons; [apply ok_untyped; auto|apply IH; auto]|]. cbn [length]. unfold ids. lia.
Qed.
Lemma ids_typed t lt ns : tok_ok (id t lt) -> Forall tok_ok (ids ns) -> oks (7 * length (ids ns)) (map j_symbol (map (with_type t lt) ns)).
Proof.
  intros Ht. induction ns as [|n ns IH]; intros Hf; [apply oks_nil|]. cbn [ids map] in *. inversion Hf; subst.
  eapply oks_le; [apply oks_cons; [apply ok_typed; auto|apply IH; auto]|]. cbn [length]. unfold ids. lia.
Qed.
Ltac toks := repeat match goal with
  | Hf : Forall tok_ok (_ ++ _) |- _ => apply Forall_app in Hf as [? ?]
  | Hf : Forall tok_ok (_ :: _) |- _ => apply Forall_cons_iff in Hf as [? ?]
  | Hf : Forall tok_ok [] |- _ => clear Hf
  end.
Ltac sizes := repeat (rewrite ?app_length; cbn [length]); unfold tok in *; lia.
Lemma ok_args ts l : GArgs ts l -> Forall tok_ok ts -> oks (7 * length ts) (map j_symbol l).
Proof.
  induction 1 as [ns l|ns l t lt ts r _ IH]; intros Hf; toks.
  - eapply oks_le; [apply ids_untyped; auto|sizes].
  - rewrite map_app. eapply oks_le; [apply oks_app; [apply ids_typed; auto|apply IH; auto]|sizes].
Qed.
Lemma ok_args_list ts l : GArgs ts l -> Forall tok_ok ts -> ok (7 * length ts + 1) (j_list j_symbol l).
Proof. intros Hg Hf. eapply ok_le; [apply ok_arr, (ok_args ts); auto|lia]. Qed.
Lemma ok_atom n ln ts vars : GArgs ts vars -> tok_ok (id n ln) -> Forall tok_ok ts -> ok (7 * length ts + 5) (j_predicate (mkPred n ln vars)).
Proof.
  intros Hg [H1 H2] Hf. unfold j_predicate. cbn [pred_name pred_pos pred_vars fst snd id] in *.
  eapply ok_le; [apply ok_obj; field; [apply ok_str; exact H2|field; [apply ok_pos; exact H1|field; [apply (ok_args_list ts); auto|apply okf_nil]]]|lia].
Qed.
Lemma ok_func n ln ts vars : GArgs ts vars -> tok_ok (id n ln) -> Forall tok_ok ts -> ok (7 * length ts + 5) (j_func (mkFunc n ln vars)).
Proof. intros. exact (ok_atom n ln ts vars H0 H1 H2). Qed.
Lemma ok_task ts t : GTask ts t -> Forall tok_ok ts -> ok (7 * length ts + 5) (j_task t).
Proof.
  destruct 1 as [n ln l1 l2 ts params Hg]; intros Hf; toks.
  match goal with Ht : tok_ok (id n ln) |- _ => destruct Ht as [H1' H2'] end. unfold j_task. cbn [task_name task_pos task_params fst snd id] in *.
  eapply ok_le; [apply ok_obj; field; [apply ok_str; exact H2'|field; [apply ok_pos; exact H1'|field; [apply (ok_args_list ts); auto|apply okf_nil]]]|sizes].
Qed.
Lemma ok_preds ts ps : GPreds ts ps -> Forall tok_ok ts -> oks (7 * length ts) (map j_predicate ps).
Proof.
  induction 1 as [l|l n ln ts vars us ps Ha _ IH]; intros Hf; toks; [apply oks_nil|].
  eapply oks_le; [apply oks_cons; [apply (ok_atom n ln ts); auto|apply IH; auto]|sizes].
Qed.
Lemma ok_funcs ts ps : GFuncs ts ps -> Forall tok_ok ts -> oks (7 * length ts) (map j_func ps).
Proof.
  induction 1 as [l|l n ln ts vars us ps Ha _ IH]; intros Hf; toks; [apply oks_nil|].
  eapply oks_le; [apply oks_cons; [apply (ok_func n ln ts); auto|apply IH; auto]|sizes].
Qed.
Lemma ok_req r : ok 1 (j_requirement r).
Proof. apply ok_str. destruct r; key. Qed.
Lemma ok_reqs ts rs : GReqs ts rs -> oks (length ts) (map j_requirement rs).
Proof.
  induction 1 as [l|r l ts rs _ IH]; [apply oks_nil|]. eapply oks_le; [apply oks_cons; [apply ok_req|exact IH]|sizes].
Qed.
Lemma ok_number w l : tok_ok (TNumber w, l) -> ok 2 (j_number w).
Proof.
  intros [_ Hw]. cbn [fst] in Hw. apply (ok_le 2); [|lia]. destruct w as [s|z]; cbn [j_number]; apply ok_obj, (okf_cons 1 0); try (key || apply okf_nil).
  - destruct (String.eqb _ _); [apply ok_null|split; [exact Hw|apply le_n]].
  - split; [exact Hw|apply le_n].
Qed.
Lemma ok_formula : (forall ts f, GFormula ts f -> Forall tok_ok ts -> ok (7 * length ts) (j_formula f))
  /\ (forall ts fs, GMembers ts fs -> Forall tok_ok ts -> oks (7 * length ts) (map j_formula fs))
  /\ (forall ts fs, GBranches ts fs -> Forall tok_ok ts -> oks (7 * length ts) (map j_formula fs)).
Proof.
  assert (forall k j n, String.length k <= 64 -> ok n j -> ok (S n) (JObj [(k, j)])) as Hone.
  { intros k j n Hk Hj. eapply ok_le; [apply ok_obj, okf_cons; [exact Hk|exact Hj|apply okf_nil]|lia]. }
  enough (forall ts f, GFormula ts f -> Forall tok_ok ts -> ok (7 * length ts) (j_formula f)) as Hall.
  { split; auto. split.
    - induction 1 as [ts _|ts f us fs Hg _ _ IH]; intros Hf; toks; [apply oks_nil|].
      eapply oks_le; [apply oks_cons; [apply Hall; [exact Hg|auto]|apply IH; auto]|sizes].
    - induction 1 as [l|w l ts f us fs Hg _ _ IH]; intros Hf; toks; [apply oks_nil|]. cbn [map j_formula].
      eapply oks_le; [apply oks_cons; [apply Hone; [key|]; apply ok_arr; apply oks_cons; [eapply ok_number; eauto|apply oks_cons; [apply Hall; [exact Hg|auto]|apply (oks_nil 0)]]|apply IH; auto]|sizes]. }
  apply (GFormula_mut (fun ts f _ => Forall tok_ok ts -> ok (7 * length ts) (j_formula f))
    (fun ts fs _ => Forall tok_ok ts -> oks (7 * length ts) (map j_formula fs))
    (fun ts fs _ => Forall tok_ok ts -> oks (7 * length ts) (map j_formula fs))).
  - intros l Hf. eapply ok_le; [apply ok_str; key|sizes].
  - intros l1 l2 Hf. eapply ok_le; [apply ok_str; key|sizes].
  - intros l n ln ts vars Ha Hf. toks. cbn [j_formula]. eapply ok_le; [apply Hone; [key|apply (ok_atom n ln ts); auto]|sizes].
  - intros l1 l2 ts f l3 Hg IH Hf. toks. cbn [j_formula]. eapply ok_le; [apply Hone; [key|apply IH; auto]|sizes].
  - intros l1 l2 ts fs Hg IH Hf. toks. cbn [j_formula]. eapply ok_le; [apply Hone; [key|apply ok_arr, IH; auto]|sizes].
  - intros l1 l2 ts fs Hg IH Hf. toks. cbn [j_formula]. eapply ok_le; [apply Hone; [key|apply ok_arr, IH; auto]|sizes].
  - intros l1 l2 ts fs Hg IH Hf. toks. cbn [j_formula]. eapply ok_le; [apply Hone; [key|apply ok_arr, IH; auto]|sizes].
  - intros l1 l2 a la b lb l3 Hf. toks. cbn [j_formula]. repeat match goal with Ht : tok_ok (id _ _) |- _ => destruct Ht as [_ Ht]; cbn [fst id] in Ht end.
    eapply ok_le; [apply Hone; [key|]; apply ok_arr, oks_cons; [apply ok_str; eauto|apply oks_cons; [apply ok_str; eauto|apply (oks_nil 0)]]|sizes].
  - intros l1 l2 l3 ts vars us f l4 Ha Hg IH Hf. toks. cbn [j_formula].
    eapply ok_le; [apply Hone; [key|]; apply ok_arr, oks_cons; [apply (ok_args_list ts); auto|apply oks_cons; [apply IH; auto|apply (oks_nil 0)]]|sizes].
  - intros l1 l2 l3 ts vars us f l4 Ha Hg IH Hf. toks. cbn [j_formula].
    eapply ok_le; [apply Hone; [key|]; apply ok_arr, oks_cons; [apply (ok_args_list ts); auto|apply oks_cons; [apply IH; auto|apply (oks_nil 0)]]|sizes].
  - intros l1 l2 ts fs Hg IH Hf. toks. cbn [j_formula]. eapply ok_le; [apply Hone; [key|apply ok_arr, IH; auto]|sizes].
  - intros ts Hg IH Hf. apply oks_nil.
  - intros ts f us fs Hg IHf _ Hm IH Hf. toks. eapply oks_le; [apply oks_cons; [apply IHf; auto|apply IH; auto]|sizes].
  - intros l Hf. apply oks_nil.
  - intros w l ts f us fs Hg IHf _ Hm IH Hf. toks. cbn [map j_formula].
    eapply oks_le; [apply oks_cons; [apply Hone; [key|]; apply ok_arr; apply oks_cons; [eapply ok_number; eauto|apply oks_cons; [apply IHf; auto|apply (oks_nil 0)]]|apply IH; auto]|sizes].
Qed.
Lemma ok_opt_formula k ts o : GOptFormula k ts o -> Forall tok_ok ts -> ok (7 * length ts + 1) (j_opt j_formula o).
Proof.
  destruct 1 as [|l ts f Hg]; intros Hf; toks; cbn [j_opt]; [apply ok_null|]. eapply ok_le; [apply (proj1 ok_formula ts); auto|sizes].
Qed.
Lemma ok_action ts a : GAction ts a -> Forall tok_ok ts -> ok (7 * length ts) (j_action a).
Proof.
  destruct 1 as [ts n ln params us pre vs eff l Ht Hp He]; intros Hf. inversion Ht as [n' ln' l1 l2 ts' params' Ha]; subst. toks.
  match goal with Hx : tok_ok (id n ln) |- _ => destruct Hx as [H1' H2'] end. unfold j_action. cbn [act_name act_pos act_params act_pre act_eff fst snd id] in *.
  eapply ok_le; [apply ok_obj; field; [apply ok_str; exact H2'|field; [apply ok_pos; exact H1'|field; [apply (ok_args_list ts'); auto|
    field; [eapply ok_opt_formula; eauto|field; [eapply ok_opt_formula; eauto|apply okf_nil]]]]]|sizes].
Qed.
Definition j_pair (e : string * string) : json := JArr [JStr (fst e); JStr (snd e)].
Lemma ok_order ts o : GOrder ts o -> Forall tok_ok ts -> oks (3 * length ts) (map j_pair o).
Proof.
  destruct 1 as [l1 t1 lt ns l2]; intros Hf; toks. match goal with Hx : tok_ok (id t1 lt) |- _ => destruct Hx as [_ H1']; cbn [fst id] in H1' end.
  apply (oks_le (3 * length (ids ns))); [|sizes].
  match goal with Hx : Forall tok_ok (ids ns) |- _ => rename Hx into Hn end. clear -HM H1' Hn. revert Hn.
  induction ns as [|n ns IH]; intros Hn; [apply oks_nil|]. cbn [ids map] in *. inversion Hn as [|? ? [_ Hx] Hn']; subst. cbn [fst id] in Hx.
  eapply oks_le; [apply oks_cons; [apply ok_arr, oks_cons; [apply ok_str; exact H1'|apply oks_cons; [apply ok_str; exact Hx|apply (oks_nil 0)]]|apply IH; exact Hn']|].
  cbn [length]. unfold ids. lia.
Qed.
Lemma ok_order_list ts o : GOrderList ts o -> Forall tok_ok ts -> oks (3 * length ts) (map j_pair o).
Proof.
  induction 1 as [l|l ts o us os Ho _ IH]; intros Hf; toks; [apply oks_nil|]. rewrite map_app.
  eapply oks_le; [apply oks_app; [apply (ok_order ts); auto|apply IH; auto]|sizes].
Qed.
Lemma ok_orderings ts o : GOrderings ts o -> Forall tok_ok ts -> oks (3 * length ts) (map j_pair o).
Proof.
  destruct 1 as [l1 l2|l ts o Ho|l1 l2 ts o Ho]; intros Hf; toks; [apply oks_nil|..].
  - eapply oks_le; [apply (ok_order ts); auto|sizes].
  - eapply oks_le; [apply (ok_order_list ts); auto|sizes].
Qed.
Lemma ok_subtask ts s : GSubtask ts s -> Forall tok_ok ts -> ok (7 * length ts) (j_subtask s).
Proof.
  destruct 1 as [n ln ns l|i li l1 n ln ns l2 l3]; intros Hf; toks; unfold j_subtask; cbn [sub_id sub_task sub_terms j_opt].
  - eapply ok_le; [apply ok_obj; field; [apply ok_null|field; [apply ok_untyped; auto|field; [apply ok_arr, ids_untyped; auto|apply okf_nil]]]|sizes].
  - eapply ok_le; [apply ok_obj; field; [apply ok_untyped; auto|field; [apply ok_untyped; auto|field; [apply ok_arr, ids_untyped; auto|apply okf_nil]]]|sizes].
Qed.
Lemma ok_subtask_list ts s : GSubtaskList ts s -> Forall tok_ok ts -> oks (7 * length ts) (map j_subtask s).
Proof.
  induction 1 as [l|l ts s us ss Hs _ IH]; intros Hf; toks; [apply oks_nil|].
  eapply oks_le; [apply oks_cons; [apply (ok_subtask ts); auto|apply IH; auto]|sizes].
Qed.
Lemma ok_subtasks ts s : GSubtasks ts s -> Forall tok_ok ts -> oks (7 * length ts) (map j_subtask s).
Proof.
  destruct 1 as [l1 l2|l ts s Hs|l1 l2 ts ss Hs]; intros Hf; toks; [apply oks_nil|..].
  - eapply oks_le; [apply oks_cons; [apply (ok_subtask ts); auto|apply (oks_nil 0)]|sizes].
  - eapply oks_le; [apply (ok_subtask_list ts); auto|sizes].
Qed.
Lemma ok_constraint ts c : GConstraint ts c -> Forall tok_ok ts -> ok 4 (j_constr c).
Proof.
  destruct 1; intros Hf; toks; cbn [j_constr];
  repeat match goal with Ht : tok_ok (id _ _) |- _ => destruct Ht as [_ Ht]; cbn [fst id] in Ht end;
  (eapply ok_le; [apply ok_obj; field; [apply ok_arr, oks_cons; [apply ok_str; eauto|apply oks_cons; [apply ok_str; eauto|apply (oks_nil 0)]]|apply okf_nil]|lia]).
Qed.
Lemma ok_constraint_list ts c : GConstraintList ts c -> Forall tok_ok ts -> oks (4 * length ts) (map j_constr c).
Proof.
  induction 1 as [l|l ts c us cs Hc _ IH]; intros Hf; toks; [apply oks_nil|].
  eapply oks_le; [apply oks_cons; [apply (ok_constraint ts); auto|apply IH; auto]|sizes].
Qed.
Lemma ok_constraints ts c : GConstraints ts c -> Forall tok_ok ts -> oks (4 * length ts) (map j_constr c).
Proof.
  destruct 1 as [l1 l2|l ts c Hc|l1 l2 ts cs Hc]; intros Hf; toks; [apply oks_nil|..].
  - eapply oks_le; [apply oks_cons; [apply (ok_constraint ts); auto|apply (oks_nil 0)]|sizes].
  - eapply oks_le; [apply (ok_constraint_list ts); auto|sizes].
Qed.
Lemma ok_net s o r c a b e : oks a (map j_subtask s) -> ok 2 (j_opt j_pos o) -> ok b (j_ordering r) -> ok e (j_opt (j_list j_constr) c) ->
  ok (a + b + e + 4) (j_htn (mkHtn s o r c)).
Proof.
  intros Ha Ho Hb He. unfold j_htn. cbn [htn_subtasks htn_ordering_pos htn_orderings htn_constraints].
  eapply ok_le; [apply ok_obj; field; [apply ok_arr; exact Ha|field; [exact Ho|field; [exact Hb|field; [exact He|apply okf_nil]]]]|lia].
Qed.
Lemma ok_partial b l : oks b (map j_pair l) -> ok (b + 2) (j_ordering (Partial l)).
Proof. intros Hb. cbn [j_ordering]. eapply ok_le; [apply ok_obj; field; [apply ok_arr; exact Hb|apply okf_nil]|lia]. Qed.
Lemma ok_clauses s o l c ts h : GClauses s o l c ts h -> Forall tok_ok ts -> forall a b e, oks a (map j_subtask s) -> ok 2 (j_opt j_pos o) ->
  oks b (map j_pair l) -> ok e (j_opt (j_list j_constr) c) -> ok (7 * length ts + a + b + e) (j_htn h).
Proof.
  induction 1 as [o l c r|o l c p ts l' us h Ho _ IH|o l c p ts c' us h Hc _ IH]; intros Hf a b e Ha Hp Hb He; toks.
  - eapply ok_le; [apply ok_net; [exact Ha|exact Hp|apply ok_partial; exact Hb|exact He]|sizes].
  - eapply ok_le; [apply IH; [auto|exact Ha| | |exact He]|].
    + cbn [j_opt]. apply ok_pos. match goal with Hx : tok_ok (kw _ p) |- _ => apply (proj1 Hx) end.
    + rewrite map_app. apply oks_app; [exact Hb|apply (ok_orderings ts); auto].
    + sizes.
  - eapply ok_le; [apply IH; [auto|exact Ha|exact Hp|exact Hb|]|].
    + cbn [j_opt]. apply ok_arr, (ok_constraints ts); auto.
    + sizes.
Qed.
Lemma ok_htn ts h x : GHtn ts h x -> Forall tok_ok ts -> ok (7 * length ts + 7) (j_htn h).
Proof.
  destruct 1 as [|l ts s us h Hs Hc|l ts s r Hs|l ts s l' us c Hs Hc]; intros Hf; toks.
  - eapply ok_le; [apply (ok_net [] None (Partial []) None 0 2 1); [apply oks_nil|apply (ok_le 1), Nat.le_succ_diag_r; apply ok_null|apply (ok_partial 0), oks_nil|apply ok_null]|sizes].
  - eapply ok_le; [apply (ok_clauses _ _ _ _ _ _ Hc ltac:(auto) (7 * length ts) 0 1); [apply (ok_subtasks ts); auto|apply (ok_le 1), Nat.le_succ_diag_r; apply ok_null|apply oks_nil|apply ok_null]|sizes].
  - eapply ok_le; [apply (ok_net s None Total None (7 * length ts) 1 1); [apply (ok_subtasks ts); auto|apply (ok_le 1), Nat.le_succ_diag_r; apply ok_null|apply ok_str; key|apply ok_null]|sizes].
  - eapply ok_le; [apply (ok_net s None Total (Some c) (7 * length ts) 1 (S (4 * length us))); [apply (ok_subtasks ts); auto|apply (ok_le 1), Nat.le_succ_diag_r; apply ok_null|apply ok_str; key|apply ok_arr, (ok_constraints us); auto]|sizes].
Qed.
Lemma ok_init ts t x : GInitTn ts t x -> Forall tok_ok ts -> ok (7 * length ts + 9) (j_init_tn t).
Proof.
  destruct 1 as [ts h x Hh|l1 l2 ts params us h x Ha Hh]; intros Hf; toks; unfold j_init_tn; cbn [itn_params itn_tn j_opt].
  - eapply ok_le; [apply ok_obj; field; [apply ok_null|field; [eapply ok_htn; eauto|apply okf_nil]]|sizes].
  - eapply ok_le; [apply ok_obj; field; [apply (ok_args_list ts); auto|field; [eapply ok_htn; eauto|apply okf_nil]]|sizes].
Qed.
Lemma ok_method ts m x : GMethod ts m x -> Forall tok_ok ts -> ok (7 * length ts) (j_method m).
Proof.
  destruct 1 as [n ln l1 l2 ts params l3 l4 t lt us terms vs pre ws h x Ha Hb Hp Hh _]; intros Hf; toks.
  unfold j_method; cbn [m_name m_task m_task_terms m_params m_pre m_tn].
  eapply ok_le; [apply ok_obj; field; [apply ok_untyped; auto|field; [apply ok_untyped; auto|field; [apply (ok_args_list us); auto|
    field; [apply (ok_args_list ts); auto|field; [eapply ok_opt_formula; eauto|field; [eapply ok_htn; eauto|apply okf_nil]]]]]]|sizes].
Qed.

(** ** Documents *)
Definition domain_parts (k : nat) (d : domain_ast) : Prop :=
  exists a1 a2 a3 a4 a5 a6 a7 a8, oks a1 (map j_symbol (match d_types d with Some l => l | None => [] end))
  /\ oks a2 (map j_symbol (match d_constants d with Some l => l | None => [] end))
  /\ oks a3 (map j_requirement (d_reqs d)) /\ oks a4 (map j_predicate (d_preds d)) /\ oks a5 (map j_task (d_tasks d))
  /\ oks a6 (map j_method (d_methods d)) /\ oks a7 (map j_action (d_actions d)) /\ oks a8 (map j_func (d_funcs d))
  /\ a1 + a2 + a3 + a4 + a5 + a6 + a7 + a8 <= k.
Lemma some_if_list {A} (l : list A) : match some_if l with Some l => l | None => [] end = l.
Proof. destruct l; auto. Qed.
Lemma ok_block ts b x n : GBlock ts b x -> Forall tok_ok ts -> domain_parts (7 * length ts) (domain_of n [b]).
Proof.
  intros Hb Hf. unfold domain_parts. cbn [domain_of d_types d_constants d_reqs d_preds d_tasks d_methods d_actions d_funcs]. rewrite !some_if_list.
  destruct Hb as [l1 l2 ts r Hr|l1 l2 ts r Hr|l1 l2 ts r Hr|l1 l2 ts r Hr|l1 l2 ts r Hr|l1 l2 ts r l3 Hr|l1 l2 ts r x Hr|l1 l2 ts r Hr];
    toks; cbn [flat_map map]; rewrite ?app_nil_r.
  - exists 0, 0, (length ts), 0, 0, 0, 0, 0. repeat (split; [first [apply oks_nil|apply ok_reqs; auto]|]). sizes.
  - exists (7 * length ts), 0, 0, 0, 0, 0, 0, 0. repeat (split; [first [apply oks_nil|apply ok_args; auto]|]). sizes.
  - exists 0, (7 * length ts), 0, 0, 0, 0, 0, 0. repeat (split; [first [apply oks_nil|apply ok_args; auto]|]). sizes.
  - exists 0, 0, 0, (7 * length ts), 0, 0, 0, 0. repeat (split; [first [apply oks_nil|apply ok_preds; auto]|]). sizes.
  - exists 0, 0, 0, 0, 0, 0, 0, (7 * length ts). repeat (split; [first [apply oks_nil|apply ok_funcs; auto]|]). sizes.
  - exists 0, 0, 0, 0, (7 * length ts + 5 + 0), 0, 0, 0. repeat (split; [first [apply oks_nil|apply oks_cons; [apply ok_task; auto|apply oks_nil]]|]). sizes.
  - exists 0, 0, 0, 0, 0, (7 * length ts + 0), 0, 0. repeat (split; [first [apply oks_nil|apply oks_cons; [eapply ok_method; eauto|apply oks_nil]]|]). sizes.
  - exists 0, 0, 0, 0, 0, 0, (7 * length ts + 0), 0. repeat (split; [first [apply oks_nil|apply oks_cons; [apply ok_action; auto|apply oks_nil]]|]). sizes.
Qed.
Lemma domain_parts_cons n a b x bs : domain_parts a (domain_of n [x]) -> domain_parts b (domain_of n bs) -> domain_parts (a + b) (domain_of n (x :: bs)).
Proof.
  unfold domain_parts. cbn [domain_of d_types d_constants d_reqs d_preds d_tasks d_methods d_actions d_funcs]. rewrite !some_if_list.
  intros (a1 & a2 & a3 & a4 & a5 & a6 & a7 & a8 & A1 & A2 & A3 & A4 & A5 & A6 & A7 & A8 & A)
    (b1 & b2 & b3 & b4 & b5 & b6 & b7 & b8 & B1 & B2 & B3 & B4 & B5 & B6 & B7 & B8 & B).
  exists (a1 + b1), (a2 + b2), (a3 + b3), (a4 + b4), (a5 + b5), (a6 + b6), (a7 + b7), (a8 + b8).
  cbn [flat_map] in *. rewrite app_nil_r in *. rewrite !map_app.
  repeat (split; [apply oks_app; assumption|]). lia.
Qed.
Lemma ok_blocks n ts bs : GBlocks ts bs -> Forall tok_ok ts -> domain_parts (7 * length ts) (domain_of n bs).
Proof.
  assert (forall a b d, domain_parts a d -> a <= b -> domain_parts b d) as Hle.
  { intros a b d (a1 & a2 & a3 & a4 & a5 & a6 & a7 & a8 & A1 & A2 & A3 & A4 & A5 & A6 & A7 & A8 & A) Hl.
    exists a1, a2, a3, a4, a5, a6, a7, a8. repeat (split; [assumption|]). lia. }
  induction 1 as [l|ts b l Hb|ts b us bs Hb _ IH]; intros Hf; toks.
  - exists 0, 0, 0, 0, 0, 0, 0, 0. repeat (split; [apply oks_nil|]). lia.
  - eapply Hle; [eapply ok_block; eauto|sizes].
  - eapply Hle; [apply domain_parts_cons; [eapply ok_block; eauto|apply IH; auto]|sizes].
Qed.
Lemma ok_optlist {A} (f : A -> json) k o : oks k (map f (match o with Some l => l | None => [] end)) -> ok (S k) (j_opt (j_list f) o).
Proof. destruct o; cbn [j_opt]; intros Hk; [apply ok_arr; exact Hk|eapply ok_le; [apply ok_null|lia]]. Qed.
Lemma ok_domain k d : domain_parts k d -> String.length (d_name d) <= M -> ok (k + 10) (j_domain d).
Proof.
  intros (a1 & a2 & a3 & a4 & a5 & a6 & a7 & a8 & A1 & A2 & A3 & A4 & A5 & A6 & A7 & A8 & A) Hn. unfold j_domain.
  eapply ok_le; [apply ok_obj; field; [apply ok_str; exact Hn|field; [apply ok_optlist; exact A1|field; [apply ok_optlist; exact A2|
    field; [apply ok_arr; exact A3|field; [apply ok_arr; exact A4|field; [apply ok_arr; exact A5|field; [apply ok_arr; exact A6|field; [apply ok_arr; exact A7|
    field; [apply ok_arr; exact A8|apply okf_nil]]]]]]]]]|lia].
Qed.

Lemma last_some_cons {A B} (f : A -> option B) x l : last_some f (x :: l) = match last_some f l with Some y => Some y | None => f x end.
Proof.
  unfold last_some. cbn [fold_left]. assert (forall o, fold_left (fun o x => match f x with Some y => Some y | None => o end) l o
    = match fold_left (fun o x => match f x with Some y => Some y | None => o end) l None with Some y => Some y | None => o end) as Hg.
  { induction l as [|y l IH]; intros o; auto. cbn [fold_left]. rewrite IH. symmetry. rewrite IH. destruct (fold_left _ l None); auto. destruct (f y); auto. }
  rewrite Hg. destruct (fold_left _ l None); auto. destruct (f x); auto.
Qed.
Definition problem_parts (k : nat) (p : problem_ast) : Prop :=
  exists a1 a2 a3 a4 a5, oks a1 (map j_requirement (p_reqs p)) /\ oks a2 (map j_symbol (p_objects p))
  /\ (forall t, p_init_tn p = Some t -> ok a3 (j_init_tn t)) /\ (forall f, p_goal p = Some f -> ok a4 (j_formula f))
  /\ oks a5 (map j_predicate (p_init p)) /\ a1 + a2 + a3 + a4 + a5 <= k.
Lemma ok_pblock ts b x : GPBlock ts b x -> Forall tok_ok ts -> problem_parts (7 * length ts) (problem_of [b]).
Proof.
  intros Hb Hf. unfold problem_parts. cbn [problem_of p_reqs p_objects p_init_tn p_goal p_init].
  destruct Hb as [l1 l2 ts r Hr|l1 l2 ts r Hr|l1 l2 ts r x Hr|l1 l2 ts r Hr|l1 l2 ts r Hr];
    toks; cbn [flat_map map]; unfold last_some; cbn [fold_left]; rewrite ?app_nil_r.
  - exists (length ts), 0, 0, 0, 0. repeat (split; [first [apply oks_nil|apply ok_reqs; auto|discriminate]|]). sizes.
  - exists 0, (7 * length ts), 0, 0, 0. repeat (split; [first [apply oks_nil|apply ok_args; auto|discriminate]|]). sizes.
  - exists 0, 0, (7 * length ts + 9), 0, 0. repeat (split; [first [apply oks_nil|discriminate|intros t Et; injection Et as <-; eapply ok_init; eauto]|]). sizes.
  - exists 0, 0, 0, (7 * length ts), 0. repeat (split; [first [apply oks_nil|discriminate|intros t Et; injection Et as <-; apply (proj1 ok_formula ts); auto]|]). sizes.
  - exists 0, 0, 0, 0, (7 * length ts). repeat (split; [first [apply oks_nil|discriminate|apply ok_preds; auto]|]). sizes.
Qed.
Lemma problem_parts_cons a b x bs : problem_parts a (problem_of [x]) -> problem_parts b (problem_of bs) -> problem_parts (a + b) (problem_of (x :: bs)).
Proof.
  unfold problem_parts. cbn [problem_of p_reqs p_objects p_init_tn p_goal p_init].
  intros (a1 & a2 & a3 & a4 & a5 & A1 & A2 & A3 & A4 & A5 & A) (b1 & b2 & b3 & b4 & b5 & B1 & B2 & B3 & B4 & B5 & B).
  exists (a1 + b1), (a2 + b2), (a3 + b3), (a4 + b4), (a5 + b5).
  cbn [flat_map] in *. rewrite app_nil_r in *. rewrite !map_app, !last_some_cons.
  split; [apply oks_app; assumption|]. split; [apply oks_app; assumption|].
  split; [|split; [|split; [|lia]]].
  - intros t Et. destruct (last_some _ bs) eqn:El.
    + injection Et as <-. eapply ok_le; [apply B3; reflexivity|lia].
    + eapply ok_le; [apply A3; unfold last_some; cbn [fold_left]; rewrite Et; reflexivity|lia].
  - intros t Et. destruct (last_some _ bs) eqn:El in Et.
    + injection Et as <-. eapply ok_le; [apply B4; exact El|lia].
    + eapply ok_le; [apply A4; unfold last_some; cbn [fold_left]; rewrite Et; reflexivity|lia].
  - destruct (last_some (fun b => match b with QInit l => Some l | _ => None end) bs) eqn:El.
    + eapply oks_le; [exact B5|lia].
    + eapply oks_le; [unfold last_some in A5; cbn [fold_left] in A5; destruct x; exact A5|lia].
Qed.
Lemma ok_pblocks ts bs : GPBlocks ts bs -> Forall tok_ok ts -> problem_parts (7 * length ts) (problem_of bs).
Proof.
  assert (forall a b d, problem_parts a d -> a <= b -> problem_parts b d) as Hle.
  { intros a b d (a1 & a2 & a3 & a4 & a5 & A1 & A2 & A3 & A4 & A5 & A) Hl.
    exists a1, a2, a3, a4, a5. repeat (split; [assumption|]). lia. }
  induction 1 as [l|l|ts b l Hb|ts b us bs Hb _ IH]; intros Hf; toks.
  - exists 0, 0, 0, 0, 0. repeat (split; [first [apply oks_nil|discriminate]|]). lia.
  - exists 0, 0, 0, 0, 0. repeat (split; [first [apply oks_nil|discriminate]|]). lia.
  - eapply Hle; [eapply ok_pblock; eauto|sizes].
  - eapply Hle; [apply problem_parts_cons; [eapply ok_pblock; eauto|apply IH; auto]|sizes].
Qed.
Lemma ok_problem k p : problem_parts k p -> ok (k + 6) (j_problem p).
Proof.
  intros (a1 & a2 & a3 & a4 & a5 & A1 & A2 & A3 & A4 & A5 & A). unfold j_problem.
  assert (ok (S a3) (j_opt j_init_tn (p_init_tn p))) as B3.
  { destruct (p_init_tn p); cbn [j_opt]; [eapply ok_le; [apply A3; reflexivity|lia]|eapply ok_le; [apply ok_null|lia]]. }
  assert (ok (S a4) (j_opt j_formula (p_goal p))) as B4.
  { destruct (p_goal p); cbn [j_opt]; [eapply ok_le; [apply A4; reflexivity|lia]|eapply ok_le; [apply ok_null|lia]]. }
  eapply ok_le; [apply ok_obj; field; [apply ok_arr; exact A1|field; [exact B3|field; [apply ok_arr; exact A5|field; [exact B4|field; [apply ok_arr; exact A2|apply okf_nil]]]]]|lia].
Qed.
Definition j_ast (a : ast) : json := match a with ADomain d => j_domain d | AProblem p => j_problem p end.
Lemma ok_document ts a : GDocument ts a -> Forall tok_ok ts -> ok (7 * length ts) (j_ast a).
Proof.
  destruct 1 as [l1 l2 l3 l4 n ln l5 ts bs Hb|l1 l2 l3 l4 n ln l5 l6 l7 m lm l8 ts bs Hb]; intros Hf; toks; cbn [j_ast].
  - eapply ok_le; [apply ok_domain; [apply ok_blocks; eauto|]|sizes]. cbn [domain_of d_name].
    match goal with Hx : tok_ok (id n ln) |- _ => apply (proj2 Hx) end.
  - eapply ok_le; [apply ok_problem, ok_pblocks; eauto|sizes].
Qed.
End G.
