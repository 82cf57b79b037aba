(** The recursion search on task indices: termination, and the reported class
    is the largest class of a simple cycle. *)
From Coq Require Import String NArith Bool List Lia PeanoNat Permutation Relations.
From Verif Require Import Base Errors Ast Tdg GraphProofs TdgGraph TdgReach SpecTdg SpecRec VerifyTop.
Import ListNotations.
Open Scope list_scope.
Open Scope nat_scope.
Open Scope outcome_scope.

Definition rank (null : list nat) (es : bool * list nat) : nat :=
  if fst es then
    match snd es with
    | [] => 3
    | _ => if forallb (fun x => mem_nat x null) (snd es) then 4 else 2
    end
  else 1.

Lemma rank_pos null es : 1 <= rank null es.
Proof. unfold rank. destruct (fst es); auto. destruct (snd es); auto. destruct (forallb _ _); auto. Qed.

Lemma update_class null e s names r :
  class (update_recursion null e s names r) = Nat.max (class r) (rank null (e, s)).
Proof.
  unfold update_recursion, rank. cbn [fst snd].
  destruct e; [destruct s as [|x s]; [|destruct (forallb _ _)]|]; destruct r; reflexivity.
Qed.
Lemma update_cycle null e s names r :
  update_recursion null e s names r = r
  \/ (class (update_recursion null e s names r) = rank null (e, s)
      /\ cycle_of (update_recursion null e s names r) = names).
Proof.
  unfold update_recursion, rank. cbn [fst snd].
  destruct e; [destruct s as [|x s]; [|destruct (forallb _ _)]|]; destruct r; simpl; auto.
Qed.

Lemma sum_cons x l : list_sum (x :: l) = x + list_sum l.
Proof. reflexivity. Qed.
Lemma sum_app l l' : list_sum (l ++ l') = list_sum l + list_sum l'.
Proof. induction l as [|x l IH]; auto. rewrite <- app_comm_cons, !sum_cons, IH. lia. Qed.

Section Rec.
Variable he : hash_env.
Hypothesis Hhe : hash_env_ok he.
Variable g : tdg.
Notation n := (length (tg_tasks g)).
Hypothesis Hfrom : forall t m, In m (from_set g t) -> t < n.
Hypothesis Hto : forall t m, In t (to_set g m) -> t < n.
Hypothesis Htond : forall m, NoDup (to_set g m).
Variable null : list nat.
Variable lf : nat.

(** ** Simple paths *)
Fixpoint chain (p : path) : Prop :=
  match p with
  | [] => True
  | x :: p' => match p' with
               | [] => True
               | y :: _ => In (fst y) (to_set g (snd x)) /\ chain p'
               end
  end.
Record ipath (p : path) : Prop := mkIpath {
  ip_ne : p <> [];
  ip_from : Forall (fun x => In (snd x) (from_set g (fst x))) p;
  ip_chain : chain p;
  ip_nodup : NoDup (map fst p)
}.
Notation lastm p := (snd (last p (0, 0))).

Lemma chain_app p : forall q, chain (p ++ q) -> chain p /\ chain q.
Proof.
  induction p as [|x p IH]; intros q; simpl; auto. destruct p as [|y p]; simpl in *.
  - destruct q; tauto.
  - intros [H1 H2]. destruct (IH q H2) as [H3 H4]. auto.
Qed.
Lemma chain_snoc p x : p <> [] -> chain p -> In (fst x) (to_set g (lastm p)) -> chain (p ++ [x]).
Proof.
  intros Hp. induction p as [|y p IH]; [congruence|]. intros Hc Hx. destruct p as [|z p].
  - simpl in *. auto.
  - destruct Hc as [H1 H2]. simpl. split; auto. apply IH; auto; discriminate.
Qed.
Lemma chain_mid p x q : chain (p ++ x :: q) -> p <> [] -> In (fst x) (to_set g (lastm p)).
Proof.
  induction p as [|y p IH]; [congruence|]. intros Hc _. destruct p as [|z p].
  - simpl in Hc. apply Hc.
  - destruct Hc as [_ Hc]. change (last (y :: z :: p) (0, 0)) with (last (z :: p) (0, 0)). apply IH; auto. discriminate.
Qed.
Lemma nodup_app_l {A} (l l' : list A) : NoDup (l ++ l') -> NoDup l.
Proof. induction l; simpl; intros Hn; [constructor|]. inversion Hn; subst. constructor; auto. rewrite in_app_iff in *. tauto. Qed.
Lemma nodup_app_r {A} (l l' : list A) : NoDup (l ++ l') -> NoDup l'.
Proof. induction l; simpl; auto. intros Hn. inversion Hn; auto. Qed.
Lemma ipath_app p q : ipath (p ++ q) -> p <> [] -> ipath p.
Proof.
  intros [H1 H2 H3 H4] Hp. constructor; auto.
  - apply Forall_app in H2. tauto.
  - apply chain_app in H3. tauto.
  - rewrite map_app in H4. apply nodup_app_l in H4; auto.
Qed.
Lemma ipath_app_r p q : ipath (p ++ q) -> q <> [] -> ipath q.
Proof.
  intros [H1 H2 H3 H4] Hp. constructor; auto.
  - apply Forall_app in H2. tauto.
  - apply chain_app in H3. tauto.
  - rewrite map_app in H4. apply nodup_app_r in H4; auto.
Qed.

Lemma cycle_from_none t p : cycle_from t p = None <-> ~ In t (map fst p).
Proof.
  induction p as [|[t' m] p IH]; simpl; [tauto|]. destruct (Nat.eqb_spec t' t) as [->|Hn].
  - split; [discriminate|tauto].
  - rewrite IH. tauto.
Qed.
Lemma cycle_from_some t p c : cycle_from t p = Some c -> exists p1 m c', p = p1 ++ c /\ c = (t, m) :: c' /\ ~ In t (map fst p1).
Proof.
  induction p as [|[t' m] p IH]; simpl; [discriminate|]. destruct (Nat.eqb_spec t' t) as [->|Hn].
  - intros E. injection E as <-. exists [], m, p. auto.
  - intros E. destruct (IH E) as (p1 & m1 & c' & -> & -> & Hi). exists ((t', m) :: p1), m1, c'.
    split; auto. split; auto. simpl. tauto.
Qed.
Lemma cycle_from_last t p c : cycle_from t p = Some c -> lastm c = lastm p.
Proof.
  intros E. destruct (cycle_from_some _ _ _ E) as (p1 & m & c' & -> & -> & _). clear E.
  induction p1 as [|x p1 IH]; auto. rewrite IH. simpl. destruct (p1 ++ (t, m) :: c') eqn:E; auto.
  apply app_eq_nil in E as [_ E]. discriminate.
Qed.

(** A simple cycle: a simple path whose last method leads back to the start. *)
Definition icycle (c : path) (t : nat) : Prop :=
  ipath c /\ hd_error (map fst c) = Some t /\ In t (to_set g (lastm c)).
Lemma event_cycle p t c : ipath p -> In t (to_set g (lastm p)) -> cycle_from t p = Some c -> icycle c t.
Proof.
  intros Hp Ht E. rewrite <- (cycle_from_last _ _ _ E) in Ht.
  destruct (cycle_from_some _ _ _ E) as (p1 & m & c' & -> & -> & _).
  split; [|split; auto]. eapply ipath_app_r; eauto. discriminate.
Qed.
Lemma cycle_event c t : icycle c t -> cycle_from t c = Some c.
Proof.
  intros [_ [Hh _]]. destruct c as [|[t' m] c]; [discriminate|]. injection Hh as ->. simpl. rewrite Nat.eqb_refl. auto.
Qed.

(** The context of a cycle. *)
Definition ctx (c : path) (t : nat) : outcome (bool * list nat) :=
  match c ++ [(t, lastm c)] with
  | [] => Ok (true, [])
  | (_, m0) :: rest => cycle_context he lf g null t m0 rest true []
  end.
Definition report (c : path) (t : nat) : list (string * string) := cycle_names g (c ++ [(t, lastm c)]).

(** ** One path *)
Lemma push_In (p : path) (t : nat) : forall (ms : list nat) st q, In q (fold_left (fun st m' => (p ++ [(t, m')]) :: st) ms st) <->
  In q st \/ exists m, In m ms /\ q = p ++ [(t, m)].
Proof.
  induction ms as [|m ms IH]; intros st q; simpl.
  { split; auto. intros [Hq|(m & [] & _)]. exact Hq. }
  rewrite IH. split.
  - intros [[<-|Hq]|(m' & Hm & Eq)]; [right; exists m; auto|auto|right; exists m'; auto].
  - intros [Hq|(m' & [<-|Hm] & Eq)]; [left; right; exact Hq|left; left; auto|right; exists m'; auto].
Qed.
Lemma push_length (p : path) (t : nat) : forall (ms : list nat) st, length (fold_left (fun st m' => (p ++ [(t, m')]) :: st) ms st) = length ms + length st.
Proof. induction ms as [|m ms IH]; intros st; simpl; auto. rewrite IH. simpl. lia. Qed.

Lemma visit_spec p : forall tasks stack r stack' r',
  visit_tasks he lf g null p (lastm p) tasks stack r = Ok (stack', r') ->
  (forall q, In q stack' <-> In q stack \/ exists t m, In t tasks /\ ~ In t (map fst p) /\ In m (from_set g t) /\ q = p ++ [(t, m)])
  /\ class r <= class r'
  /\ (forall t c, In t tasks -> cycle_from t p = Some c -> exists es, ctx c t = Ok es /\ rank null es <= class r')
  /\ (r' = r \/ exists t c es, In t tasks /\ cycle_from t p = Some c /\ ctx c t = Ok es
                  /\ class r' = rank null es /\ cycle_of r' = report c t).
Proof.
  induction tasks as [|t tasks IH]; intros stack r stack' r' E.
  - injection E as <- <-. split; [|split; [auto|split; [intros t c []|auto]]].
    intros q. split; auto. intros [?|(t & m & [] & _)]; auto.
  - cbn [visit_tasks] in E. destruct (cycle_from t p) as [c|] eqn:Ec.
    + assert (Ein : In t (map fst p)).
      { destruct (in_dec Nat.eq_dec t (map fst p)) as [Hi|Hi]; auto. apply cycle_from_none in Hi. congruence. }
      assert (Ectx : ctx c t = match c ++ [(t, lastm p)] with [] => Ok (true, []) | (_, m0) :: rest => cycle_context he lf g null t m0 rest true [] end).
      { unfold ctx. rewrite (cycle_from_last _ _ _ Ec). auto. }
      assert (Erep : report c t = cycle_names g (c ++ [(t, lastm p)])).
      { unfold report. rewrite (cycle_from_last _ _ _ Ec). auto. }
      destruct (c ++ [(t, lastm p)]) as [|[t0 m0] rest] eqn:Eapp; [destruct c; discriminate|].
      apply bind_ok in E as ([e s] & Ees & E). cbn [fst snd] in E. rewrite Ees in Ectx.
      destruct (IH _ _ _ _ E) as (H1 & H2 & H3 & H4). rewrite update_class in H2.
      split; [|split; [lia|split]].
      * intros q. rewrite H1. split.
        -- intros [?|(t1 & m & Hi & Hr)]; auto. right. exists t1, m. split; [right; auto|auto].
        -- intros [?|(t1 & m & [<-|Hi] & Hr)]; auto; [tauto|]. right. exists t1, m. auto.
      * intros t1 c1 [<-|Hi] Ec1.
        -- assert (c1 = c) as -> by congruence. exists (e, s). split; auto. lia.
        -- destruct (H3 t1 c1 Hi Ec1) as (es & He & Hr). eauto.
      * destruct H4 as [->|(t1 & c1 & es & Hi & Hr)].
        -- destruct (update_cycle null e s (cycle_names g ((t0, m0) :: rest)) r) as [Hu|[Hu1 Hu2]]; [auto|].
           right. exists t, c, (e, s). split; [left; auto|]. split; auto. split; auto. split; auto. congruence.
        -- right. exists t1, c1, es. split; [right; auto|auto].
    + destruct (IH _ _ _ _ E) as (H1 & H2 & H3 & H4). split; [|split; [auto|split]].
      * intros q. rewrite H1, push_In. apply cycle_from_none in Ec. split.
        -- intros [[?|(m & Hm & ->)]|(t1 & m & Hi & Hr)]; auto.
           ++ right. exists t, m. apply (it_methods_In he Hhe) in Hm. split; [left; auto|auto].
           ++ right. exists t1, m. split; [right; auto|auto].
        -- intros [?|(t1 & m & [<-|Hi] & H5 & Hm & ->)]; auto.
           ++ left. right. exists m. split; auto. apply (it_methods_In he Hhe); auto.
           ++ right. exists t1, m. auto.
      * intros t1 c1 [<-|Hi] Ec1; [congruence|]. destruct (H3 t1 c1 Hi Ec1) as (es & He & Hr). eauto.
      * destruct H4 as [->|(t1 & c1 & es & Hi & Hr)]; auto.
        right. exists t1, c1, es. split; [right; auto|auto].
Qed.

Lemma visit_fuelless p : forall tasks stack r,
  (forall t c, In t tasks -> cycle_from t p = Some c -> exists es, ctx c t = Ok es) ->
  exists stack' r', visit_tasks he lf g null p (lastm p) tasks stack r = Ok (stack', r')
    /\ length stack' <= length stack + list_sum (map (fun t => length (from_set g t)) tasks).
Proof.
  induction tasks as [|t tasks IH]; intros stack r Hc; [simpl; exists stack, r; split; auto; lia|].
  cbn [visit_tasks map]. rewrite sum_cons. destruct (cycle_from t p) as [c|] eqn:Ec.
  - destruct (Hc t c (or_introl eq_refl) Ec) as (es & Ees). unfold ctx in Ees. rewrite (cycle_from_last _ _ _ Ec) in Ees.
    destruct (c ++ [(t, lastm p)]) as [|[t0 m0] rest] eqn:Eapp; [destruct c; discriminate|].
    rewrite Ees. cbn [obind]. destruct (IH stack (update_recursion null (fst es) (snd es) (cycle_names g ((t0, m0) :: rest)) r)) as (s' & r' & E & Hl).
    { intros t1 c1 Hi. apply Hc. right; auto. }
    exists s', r'. split; auto. lia.
  - edestruct IH as (s' & r' & E & Hl); [|exists s', r'; split; [exact E|]].
    { intros t1 c1 Hi. apply Hc. right; auto. }
    rewrite push_length in Hl. unfold it_methods in Hl. rewrite (Permutation_length (ho_methods_ok _ Hhe t _)) in Hl. unfold path in *. lia.
Qed.

(** ** The search *)
Lemma loop_spec : forall fuel stack r r', Forall ipath stack ->
  recursion_loop he fuel lf g null stack r = Ok r' ->
  class r <= class r'
  /\ (forall p q t c, In p stack -> ipath (p ++ q) -> In t (to_set g (lastm (p ++ q))) -> cycle_from t (p ++ q) = Some c ->
        exists es, ctx c t = Ok es /\ rank null es <= class r')
  /\ (r' = r \/ exists c t es, icycle c t /\ ctx c t = Ok es /\ class r' = rank null es /\ cycle_of r' = report c t).
Proof.
  induction fuel as [|fuel IH]; intros stack r r' Hs E.
  - destruct stack; [|discriminate]. injection E as <-. split; auto. split; [intros p q t c []|auto].
  - destruct stack as [|p stack]; [injection E as <-; split; auto; split; [intros p q t c []|auto]|].
    cbn [recursion_loop] in E. apply bind_ok in E as ([st1 r1] & Ev & E). cbn [fst snd] in E.
    destruct (visit_spec p _ _ _ _ _ Ev) as (H1 & H2 & H3 & H4). inversion Hs as [|? ? Hp Hs']; subst.
    assert (Forall ipath st1) as Hs1.
    { rewrite Forall_forall in *. intros q Hq. apply H1 in Hq as [Hq|(t & m & Ht & Hn & Hm & ->)]; auto.
      apply (it_tasks_In he Hhe) in Ht. destruct Hp as [P1 P2 P3 P4]. constructor.
      - destruct p; discriminate.
      - apply Forall_app. split; auto.
      - apply chain_snoc; auto.
      - rewrite map_app. simpl. apply nodup_app_snoc; auto. }
    destruct (IH _ _ _ Hs1 E) as (H5 & H6 & H7). split; [lia|split].
    + intros p1 q t c [<-|Hi] Hpq Ht Ec.
      * destruct q as [|[t1 m1] q].
        -- rewrite app_nil_r in *. destruct (H3 t c) as (es & Ees & Hr); auto; [apply (it_tasks_In he Hhe); auto|].
           exists es. split; auto. lia.
        -- apply (H6 (p ++ [(t1, m1)]) q); [|rewrite <- app_assoc; auto..].
           apply H1. right. exists t1, m1. destruct Hpq as [P1 P2 P3 P4]. split; [|split; [|split; auto]].
           ++ apply (it_tasks_In he Hhe). apply (chain_mid _ _ _ P3). apply Hp.
           ++ rewrite map_app in P4. simpl in P4. apply NoDup_remove_2 in P4. rewrite in_app_iff in P4. tauto.
           ++ apply Forall_app in P2 as [_ P2]. inversion P2; auto.
      * apply (H6 p1 q); auto. apply H1. auto.
    + destruct H7 as [->|H7]; [|auto]. destruct H4 as [->|(t & c & es & Ht & Ec & Hr)]; auto. right. exists c, t, es.
      split; auto. apply (it_tasks_In he Hhe) in Ht. eapply event_cycle; eauto.
Qed.

(** ** Termination *)
Definition branching : nat := list_sum (map (fun t => length (from_set g t)) (seq 0 n)).
Fixpoint cost (j : nat) : nat := match j with O => 1 | S j' => 1 + branching * cost j' end.
Definition path_cost (p : path) : nat := cost (n - length p).
Definition stack_cost (st : list path) : nat := list_sum (map path_cost st).

Lemma cost_pos j : 1 <= cost j.
Proof. destruct j; simpl; lia. Qed.
Lemma sum_incl (f : nat -> nat) : forall l l', NoDup l -> incl l l' -> list_sum (map f l) <= list_sum (map f l').
Proof.
  induction l as [|x l IH]; intros l' Hn Hi; [simpl; lia|]. cbn [map]. rewrite sum_cons.
  destruct (in_split x l') as (a & b & ->); [apply Hi; left; auto|].
  inversion Hn; subst. specialize (IH (a ++ b)). rewrite !map_app, !sum_app in *. cbn [map]. rewrite sum_cons. apply Nat.le_trans with (f x + (list_sum (map f a) + list_sum (map f b))); [|lia].
  apply Nat.add_le_mono_l. apply IH; auto. intros y Hy. assert (In y (a ++ x :: b)) as H3 by (apply Hi; right; auto).
  apply in_app_or in H3 as [H3|[->|H3]]; apply in_or_app; auto. tauto.
Qed.
Lemma ipath_length p : ipath p -> length p <= n.
Proof.
  intros [_ Hf _ Hn]. rewrite <- (map_length fst), <- (seq_length n 0). apply NoDup_incl_length; auto.
  intros t Ht. apply in_map_iff in Ht as (x & <- & Hx). rewrite Forall_forall in Hf. apply in_seq.
  specialize (Hfrom _ _ (Hf x Hx)). lia.
Qed.

(** What is pushed for one path. *)
Lemma visit_pushed p : forall tasks stack r stack' r',
  visit_tasks he lf g null p (lastm p) tasks stack r = Ok (stack', r') ->
  exists new, stack' = new ++ stack /\ Forall (fun q => exists x, q = p ++ [x]) new.
Proof.
  induction tasks as [|t tasks IH]; intros stack r stack' r' E.
  - injection E as <- <-. exists []. auto.
  - cbn [visit_tasks] in E. destruct (cycle_from t p) as [c|] eqn:Ec.
    + destruct (c ++ [(t, lastm p)]) as [|[t0 m0] rest]; [eauto|]. apply bind_ok in E as (es & _ & E). eauto.
    + destruct (IH _ _ _ _ E) as (new & -> & Hn).
      assert (forall ms st, exists nw, fold_left (fun st m' => (p ++ [(t, m')]) :: st) ms st = nw ++ st
                                       /\ Forall (fun q => exists x, q = p ++ [x]) nw) as Hf.
      { induction ms as [|m ms IHm]; intros st; simpl; [exists []; auto|]. destruct (IHm ((p ++ [(t, m)]) :: st)) as (nw & -> & Hw).
        exists (nw ++ [p ++ [(t, m)]]). rewrite <- app_assoc. split; auto. apply Forall_app. split; eauto. }
      destruct (Hf (it_methods he g t) stack) as (nw & -> & Hw). exists (new ++ nw). rewrite app_assoc. split; auto.
      apply Forall_app. auto.
Qed.

Lemma loop_total : (forall c t, icycle c t -> exists es, ctx c t = Ok es) ->
  forall fuel stack r, Forall ipath stack -> stack_cost stack <= fuel ->
  exists r', recursion_loop he fuel lf g null stack r = Ok r'.
Proof.
  intros Hc. induction fuel as [|fuel IH]; intros stack r Hs Hf.
  - destruct stack as [|p stack]; [simpl; eauto|]. unfold stack_cost in Hf. cbn [map] in Hf. rewrite sum_cons in Hf.
    pose proof (cost_pos (n - length p)). unfold path_cost in Hf. lia.
  - destruct stack as [|p stack]; [simpl; eauto|]. inversion Hs as [|? ? Hp Hs']; subst.
    destruct (visit_fuelless p (it_tasks he g (lastm p)) stack r) as (st1 & r1 & Ev & Hl).
    { intros t c Ht Ec. apply (it_tasks_In he Hhe) in Ht. apply Hc. eapply event_cycle; eauto. }
    cbn [recursion_loop]. rewrite Ev. cbn [obind fst snd].
    destruct (visit_spec p _ _ _ _ _ Ev) as (H1 & _).
    destruct (visit_pushed p _ _ _ _ _ Ev) as (new & E1 & Hnew).
    assert (Forall ipath st1) as Hs1.
    { rewrite Forall_forall in *. intros q Hq. apply H1 in Hq as [Hq|(t & m & Ht & Hn & Hm & ->)]; auto.
      apply (it_tasks_In he Hhe) in Ht. destruct Hp as [P1 P2 P3 P4]. constructor.
      - destruct p; discriminate.
      - apply Forall_app. split; auto.
      - apply chain_snoc; auto.
      - rewrite map_app. simpl. apply nodup_app_snoc; auto. }
    apply IH; auto. subst st1. unfold stack_cost in *. cbn [map] in Hf. rewrite sum_cons in Hf.
    rewrite map_app, sum_app. rewrite app_length in Hl.
    assert (length new <= branching) as Hlen.
    { assert (list_sum (map (fun t => length (from_set g t)) (it_tasks he g (lastm p))) <= branching); [|lia].
      apply sum_incl.
      - eapply Permutation_NoDup; [apply Permutation_sym, ho_tasks_ok; auto|apply Htond].
      - intros t Ht. apply (it_tasks_In he Hhe) in Ht. apply in_seq. specialize (Hto _ _ Ht). lia. }
    destruct new as [|q0 new'].
    { simpl. pose proof (cost_pos (n - length p)). unfold path_cost, path in *. lia. }
    assert (S (length p) <= n) as Hlp.
    { apply Forall_app in Hs1 as [Hs1 _]. inversion Hs1 as [|? ? Hq _]; subst. inversion Hnew as [|? ? (x & ->) _]; subst.
      apply ipath_length in Hq. rewrite app_length in Hq. simpl in Hq. lia. }
    assert (forall l, Forall (fun q => exists x, q = p ++ [x]) l ->
              list_sum (map path_cost l) = length l * cost (n - S (length p))) as Hsum.
    { induction 1 as [|q l (x & ->) _ IHl]; auto. cbn [map length]. rewrite sum_cons, IHl. unfold path_cost at 1. rewrite app_length. simpl length.
      replace (length p + 1) with (S (length p)) by lia. lia. }
    rewrite (Hsum _ Hnew). unfold path_cost at 1 in Hf. set (j := n - S (length p)) in *.
    assert (n - length p = S j) as Ej by (subst j; unfold path in *; lia). rewrite Ej in Hf.
    cbn [cost] in Hf. pose proof (Nat.mul_le_mono_r _ _ (cost j) Hlen). unfold path in *. lia.
Qed.

(** ** From all tasks *)
Lemma initial_In q : In q (initial_stack he g) <-> exists t m, In m (from_set g t) /\ q = [(t, m)].
Proof.
  unfold initial_stack.
  assert (forall t ms st, In q (fold_left (fun st m => [(t, m)] :: st) ms st) <-> In q st \/ exists m, In m ms /\ q = [(t, m)]) as Hp.
  { intros t ms st. apply (push_In [] t ms st q). }
  assert (forall ts st, In q (fold_left (fun st t => fold_left (fun st m => [(t, m)] :: st) (it_methods he g t) st) ts st) <->
            In q st \/ exists t m, In t ts /\ In m (from_set g t) /\ q = [(t, m)]) as Hq.
  { induction ts as [|t ts IH]; intros st; simpl; [split; [auto|intros [?|(t & m & [] & _)]; auto]|].
    rewrite IH, Hp. split.
    - intros [[?|(m & Hm & ->)]|(t1 & m & Hi & Hr)]; auto.
      + right. exists t, m. apply (it_methods_In he Hhe) in Hm. auto.
      + right. exists t1, m. tauto.
    - intros [?|(t1 & m & [<-|Hi] & Hm & ->)]; auto.
      + left. right. exists m. split; auto. apply (it_methods_In he Hhe); auto.
      + right. exists t1, m. auto. }
  rewrite Hq. split; [intros [[]|(t & m & _ & Hm)]; eauto|]. intros (t & m & Hm & ->). right. exists t, m.
  split; auto. apply (it_keys_In he Hhe). eauto.
Qed.
Lemma initial_ipath : Forall ipath (initial_stack he g).
Proof.
  apply Forall_forall. intros q Hq. apply initial_In in Hq as (t & m & Hm & ->). constructor.
  - discriminate.
  - constructor; auto.
  - exact I.
  - simpl. repeat constructor. intros [].
Qed.

Theorem search_spec fuel r : recursion_loop he fuel lf g null (initial_stack he g) NonRecursive = Ok r ->
  (forall c t, icycle c t -> exists es, ctx c t = Ok es /\ rank null es <= class r)
  /\ (r = NonRecursive \/ exists c t es, icycle c t /\ ctx c t = Ok es /\ class r = rank null es /\ cycle_of r = report c t).
Proof.
  intros E. destruct (loop_spec _ _ _ _ initial_ipath E) as (_ & H2 & H3). split; auto.
  intros c t Hc. pose proof (cycle_event _ _ Hc) as Ec. destruct Hc as (Hp & Hh & Ht).
  destruct c as [|[t0 m0] c]; [discriminate|]. apply (H2 [(t0, m0)] c t); auto.
  apply initial_In. exists t0, m0. split; auto. destruct Hp as [_ Hf _ _]. inversion Hf; auto.
Qed.
Theorem search_total : (forall c t, icycle c t -> exists es, ctx c t = Ok es) ->
  exists k, forall fuel, k <= fuel -> exists r, recursion_loop he fuel lf g null (initial_stack he g) NonRecursive = Ok r.
Proof.
  intros Hc. exists (stack_cost (initial_stack he g)). intros fuel Hf. apply loop_total; auto. apply initial_ipath.
Qed.

(** ** The parts before and after the steps of a cycle *)
Fixpoint links_ix (m : nat) (rest : path) : list (nat * nat) :=
  match rest with
  | [] => []
  | (t, m') :: rest' => (t, m) :: links_ix m' rest'
  end.
Definition calm_prefix (t : nat) (pre : list nat) : bool :=
  match pre with
  | [] => true
  | x :: _ => if Nat.eqb x t then true else forallb (fun y => mem_nat y null) pre
  end.
Lemma context_ok nt : forall rest m eps suf e s,
  cycle_context he lf g null nt m rest eps suf = Ok (e, s) ->
  exists fs, Forall2 (fun l f => get_prefix he lf g (fst l) (snd l) = Ok (fst f) /\ get_suffix he lf g (fst l) (snd l) = Ok (snd f))
                     (links_ix m rest) fs
    /\ e = eps && forallb (calm_prefix nt) (map fst fs) /\ s = suf ++ concat (map snd fs).
Proof.
  induction rest as [|[t m'] rest IH]; intros m eps suf e s E.
  - injection E as <- <-. exists []. simpl. rewrite andb_true_r, app_nil_r. repeat split; constructor.
  - cbn [cycle_context] in E. apply bind_ok in E as (pre & Epre & E). apply bind_ok in E as (sf & Esf & E).
    destruct (IH _ _ _ _ _ E) as (fs & H1 & -> & ->). exists ((pre, sf) :: fs). split; [constructor; auto|].
    cbn [map forallb concat fst snd]. rewrite app_assoc. split; auto. unfold calm_prefix at 2.
    destruct pre as [|x pre]; auto. destruct (Nat.eqb x nt); auto. rewrite andb_assoc. auto.
Qed.
Lemma context_total nt : forall rest m eps suf,
  (forall l, In l (links_ix m rest) -> (exists f, get_prefix he lf g (fst l) (snd l) = Ok f) /\ (exists f, get_suffix he lf g (fst l) (snd l) = Ok f)) ->
  exists es, cycle_context he lf g null nt m rest eps suf = Ok es.
Proof.
  induction rest as [|[t m'] rest IH]; intros m eps suf Hl; simpl; [eauto|].
  destruct (Hl (t, m)) as [(pre & Epre) (sf & Esf)]; [left; auto|]. cbn [fst snd] in *. rewrite Epre. simpl. rewrite Esf. simpl.
  apply IH. intros l Hi. apply Hl. right; auto.
Qed.
End Rec.
