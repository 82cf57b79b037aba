(** C83: how long an exported text can be. *)
From Coq Require Import String Ascii NArith ZArith Bool List Lia PeanoNat.
From Verif Require Import Base Token Lexer Errors Ast Parser Api Json StrFacts SpecLex LexProofs SpecIo SpecJson JsonText PrintText SpecPrint Graph Semantic Tdg SpecTdg TdgTop SpecSem PropsTime
  PropsLex PropsIo PropsJson Real64 SpecReal RealProofs RealProofs2 RealProofs3 PropsReal TimeTop PropsStack ExportSize ExportTop.
Import ListNotations.
Open Scope string_scope.
Open Scope list_scope.
Open Scope nat_scope.

(** [L] bytes of documents give at most [280 * (L + 12)^2] bytes of JSON, if no
    real number is written with more than 64 bytes more than it was read. *)
Theorem C83_quadratic `{Unicode} `{Floats} : forall swap n dom prob t,
  (forall l, String.length (f64_text l) <= 64 + String.length l) -> to_json swap n dom prob = Ok t ->
  let L := String.length dom + match prob with Some p => String.length p | None => 0 end in
  String.length t <= 280 * (L + 12) ^ 2.
Proof. intros. eapply export_len; eauto. Qed.

(** Real numbers are written with at most 24 bytes. *)
Lemma show_few c k : (c < 10 ^ N.of_nat (S k))%N -> String.length (show_N c) <= S k.
Proof.
  intros Hc. destruct (N.eq_dec c 0) as [->|H0]; [cbn; lia|]. destruct (show_bounds c ltac:(lia)) as [Hl _].
  destruct (Nat.le_gt_cases (String.length (show_N c)) (S k)) as [|Hg]; auto. exfalso.
  assert (10 ^ N.of_nat (S k) <= 10 ^ N.of_nat (String.length (show_N c) - 1))%N by (apply N.pow_le_mono_r; lia). lia.
Qed.
Lemma shortest_power : forall fuel u p, (-1074 <= p - Z.of_nat fuel + 1)%Z -> (-1074 <= snd (shortest_from fuel u p) <= Z.max p (-1074))%Z.
Proof.
  induction fuel as [|f IH]; intros u p Hp; cbn [shortest_from snd]; [lia|]. destruct (shorten u p); cbn [snd]; [lia|].
  specialize (IH u (p - 1)%Z ltac:(lia)). lia.
Qed.
Lemma substring_len : forall s a k, String.length (substring a k s) <= k.
Proof. induction s as [|c s IH]; intros [|a] [|k]; cbn [substring String.length]; try lia; auto. specialize (IH 0 k). lia. Qed.
Lemma layout_few c p : (c < 10 ^ 17)%N -> (-1074 <= p <= 309)%Z -> String.length (layout c p) <= 24.
Proof.
  intros Hc Hp. pose proof (show_few c 16 Hc) as Hs. unfold layout. remember (String.length (show_N c)) as k eqn:Ek.
  pose proof (show_length c) as H0. rewrite <- Ek in H0. cbv zeta.
  assert (String.length (show_Z (Z.of_nat k + p - 1)) <= 5) as He.
  { assert (forall c, (c < 10 ^ 4)%N -> String.length (show_N c) <= 4) as H4 by (intros c' Hc'; apply (show_few c' 3 Hc')).
    change (10 ^ 4)%N with 10000%N in H4. remember (Z.of_nat k + p - 1)%Z as z. destruct z as [|q|q]; cbn [show_Z]; [cbn; lia| |].
    - specialize (H4 (Z.to_N (Z.pos q)) ltac:(lia)). lia.
    - specialize (H4 (N.pos q) ltac:(lia)). cbn [String.length]. lia. }
  remember (show_Z (Z.of_nat k + p - 1)) as ex eqn:Eex. remember (Z.of_nat k + p)%Z as kk eqn:Ekk.
  destruct ((0 <=? p)%Z && (kk <=? 16)%Z) eqn:B1.
  { rewrite !app_length_s, zeros_length, <- Ek. apply andb_prop in B1 as [B1 B2]. cbn [String.length]. lia. }
  destruct ((0 <? kk)%Z && (kk <=? 16)%Z) eqn:B2.
  { rewrite !app_length_s. apply andb_prop in B2 as [B2 B3]. pose proof (substring_len (show_N c) 0 (Z.to_nat kk)).
    pose proof (substring_len (show_N c) (Z.to_nat kk) (k - Z.to_nat kk)). cbn [String.length]. lia. }
  destruct ((-5 <? kk)%Z && (kk <=? 0)%Z) eqn:B3.
  { rewrite !app_length_s, zeros_length, <- Ek. apply andb_prop in B3 as [B3 B4]. cbn [String.length]. lia. }
  destruct (Nat.eqb k 1).
  - rewrite !app_length_s, <- Ek. cbn [String.length]. lia.
  - rewrite !app_length_s. pose proof (substring_len (show_N c) 0 1). pose proof (substring_len (show_N c) 1 (k - 1)). cbn [String.length]. lia.
Qed.
Theorem C83_reals : forall l, String.length (@f64_text ieee l) <= 24.
Proof.
  intros l. change (@f64_text ieee l) with (double_text (double l)). unfold double_text.
  destruct (N.leb_spec beyond (double l)) as [|Hb]; [cbn; lia|]. destruct (N.eqb_spec (double l) 0) as [|H0]; [cbn; lia|].
  apply layout_few.
  - apply shortest_seventeen; [apply double_binary|lia|exact Hb].
  - unfold shortest. pose proof (shortest_power (N.to_nat 1384) (double l) 309 ltac:(lia)) as Hp. lia.
Qed.
(** So with doubles the bound always holds. *)
Theorem C83_export `{Unicode} : forall swap n dom prob t, @to_json _ ieee swap n dom prob = Ok t ->
  let L := String.length dom + match prob with Some p => String.length p | None => 0 end in
  String.length t <= 280 * (L + 12) ^ 2.
Proof. intros swap n dom prob t. apply (@C83_quadratic _ ieee). intros l. pose proof (C83_reals l). lia. Qed.

(** ** A proportional bound does not hold *)
Lemma text_arr j l n : In j l -> String.length (json_text (S n) j) <= String.length (json_text n (JArr l)).
Proof.
  intros Hi. destruct l as [|j1 l]; [destruct Hi|]. cbn [json_text]. rewrite !app_length_s.
  destruct Hi as [->|Hi]; [lia|]. match goal with |- _ <= _ + (_ + (_ + ?m)) => enough (String.length (json_text (S n) j) <= m) by lia end.
  induction l as [|y l IH]; [destruct Hi|]. rewrite !app_length_s. destruct Hi as [->|Hi]; [lia|]. specialize (IH Hi). lia.
Qed.
Lemma text_obj k j l n : In (k, j) l -> String.length (break (S n)) + String.length (json_text (S n) j) <= String.length (json_text n (JObj l)).
Proof.
  intros Hi. destruct l as [|[k1 j1] l]; [destruct Hi|]. cbn [json_text]. rewrite !app_length_s.
  destruct Hi as [E|Hi]; [injection E as -> ->; lia|]. match goal with |- _ <= _ + (_ + (_ + (_ + (_ + ?m)))) => enough (String.length (break (S n)) + String.length (json_text (S n) j) <= m) by lia end.
  induction l as [|[k2 j2] l IH]; [destruct Hi|]. rewrite !app_length_s. destruct Hi as [E|Hi]; [injection E as -> ->; lia|]. specialize (IH Hi). lia.
Qed.
Lemma nots_text `{Floats} k : forall n, k * k <= String.length (json_text n (j_formula (nots k))) /\ k * k + 2 * n * k <= String.length (json_text n (j_formula (nots k))).
Proof.
  induction k as [|k IH]; intros n; [lia|]. cbn [nots j_formula]. pose proof (text_obj "Not" (j_formula (nots k)) [("Not", j_formula (nots k))] n (or_introl eq_refl)) as Ht.
  rewrite break_len in Ht. destruct (IH (S n)) as [_ Hk]. split; nia.
Qed.
Theorem C83_deep `{Unicode} `{Floats} : forall he swap k, hash_env_ok he -> exists dom, String.length dom <= 63 * k + 840
  /\ forall n, String.length dom <= n -> (exists ws, verify he n dom None = Ok ws)
     /\ exists t, to_json swap n dom None = Ok t /\ k * k <= String.length t.
Proof.
  intros he swap k Hhe. exists (deep_text k). split; [apply deep_length|].
  intros n Hn. destruct (deep_parse k) as (m & Em). split.
  { eapply accepted_verified; eauto using deep_ok. }
  apply domain_reads in Em as [_ Hp]. specialize (Hp n Hn). unfold to_json, json_value, parse_as_domain. rewrite Hp. cbn [obind].
  eexists. split; [reflexivity|].
  eapply Nat.le_trans; [apply (nots_text k 4)|].
  eapply Nat.le_trans; [|eapply Nat.le_trans; [|apply (text_obj "domain"); left; reflexivity]]; [|apply Nat.le_add_l].
  eapply Nat.le_trans; [|eapply Nat.le_trans; [|apply (text_obj "actions" (JArr [j_action (mkAction "a" 1 [] (Some (nots k)) None)])); cbn [deep j_domain]; do 7 right; left; reflexivity]]; [|apply Nat.le_add_l].
  eapply Nat.le_trans; [|apply (text_arr (j_action (mkAction "a" 1 [] (Some (nots k)) None))); left; reflexivity].
  eapply Nat.le_trans; [|apply (text_obj "preconditions" (j_formula (nots k))); unfold j_action; cbn [act_pre j_opt]; do 3 right; left; reflexivity].
  apply Nat.le_add_l.
Qed.
Theorem C83_linear_refuted `{Unicode} `{Floats} : forall he swap factor, hash_env_ok he -> exists n dom ws t, verify he n dom None = Ok ws
  /\ to_json swap n dom None = Ok t /\ factor * String.length dom < String.length t.
Proof.
  intros he swap factor Hhe. destruct (C83_deep he swap (63 * factor + 841) Hhe) as (dom & Hl & Hd).
  destruct (Hd (String.length dom) (le_n _)) as ((ws & E) & t & Et & Ht). exists (String.length dom), dom, ws, t.
  split; [exact E|]. split; [exact Et|]. nia.
Qed.

Definition export_theorems := (@C83_quadratic, @C83_reals, @C83_export, @C83_deep, @C83_linear_refuted).

(** ** Concrete cases *)
(** 145 bytes give 756. *)
Example C83_example : exists t, @to_json uni0 ieee false 100 (deep_text 2) None = Ok t /\ String.length t = 756 /\ String.length (deep_text 2) = 145.
Proof. eexists. split; [vm_compute; reflexivity|]. split; vm_compute; reflexivity. Qed.
