(** How many rounds the recursion search makes (tdg.rs 138-252): one for every
    simple path of the graph. *)
From Coq Require Import String NArith Bool List Lia PeanoNat Permutation.
From Verif Require Import Base Token Errors Ast Graph Tdg GraphProofs TdgGraph TdgReach TdgTop VerifyTop TdgRec.
Import ListNotations.
Open Scope list_scope.
Open Scope nat_scope.
Open Scope outcome_scope.

Lemma path_dec (p q : path) : {p = q} + {p <> q}.
Proof. repeat decide equality. Defined.

Section Time.
Variable he : hash_env.
Hypothesis Hhe : hash_env_ok he.
Variable g : tdg.
Hypothesis Hfrom : forall t m, In m (from_set g t) -> t < length (tg_tasks g).
Hypothesis Hfromnd : forall t, NoDup (from_set g t).
Hypothesis Htond : forall m, NoDup (to_set g m).
Variable null : list nat.
Variable lf : nat.
Notation lastm p := (snd (last p (0, 0))).
Notation ipath := (ipath g).

(** ** At least one round per path *)
Lemma remove_length_le {A} (dec : forall x y : A, {x = y} + {x <> y}) x : forall l, NoDup l -> length l <= S (length (remove dec x l)).
Proof.
  induction l as [|y l IH]; intros Hn; simpl; [lia|]. inversion Hn; subst. destruct (dec x y) as [->|].
  - rewrite notin_remove; auto.
  - simpl. specialize (IH ltac:(auto)). lia.
Qed.
Lemma remove_nodup {A} (dec : forall x y : A, {x = y} + {x <> y}) x : forall l, NoDup l -> NoDup (remove dec x l).
Proof.
  induction l as [|y l IH]; intros Hn; simpl; auto. inversion Hn; subst. destruct (dec x y); auto.
  constructor; auto. intros Hi. apply in_remove in Hi. tauto.
Qed.

Lemma pushed_ipath p st st1 r r1 : ipath p -> Forall ipath st ->
  visit_tasks he lf g null p (lastm p) (it_tasks he g (lastm p)) st r = Ok (st1, r1) -> Forall ipath st1.
Proof.
  intros Hp Hs Ev. destruct (visit_spec he Hhe g null lf p _ _ _ _ _ Ev) as (H1 & _).
  rewrite Forall_forall in *. intros q Hq. apply H1 in Hq as [Hq|(t & m & Ht & Hn & Hm & ->)]; auto.
  apply (it_tasks_In he Hhe) in Ht. destruct Hp as [P1 P2 P3 P4]. constructor.
  - destruct p; discriminate.
  - apply Forall_app. split; auto.
  - apply chain_snoc; auto.
  - rewrite map_app. simpl. apply nodup_app_snoc; auto.
Qed.
Lemma next_pushed p st st1 r r1 x s : ipath p -> ipath (p ++ x :: s) ->
  visit_tasks he lf g null p (lastm p) (it_tasks he g (lastm p)) st r = Ok (st1, r1) -> In (p ++ [x]) st1.
Proof.
  intros Hp Hpq Ev. destruct (visit_spec he Hhe g null lf p _ _ _ _ _ Ev) as (H1 & _). apply H1. right.
  destruct x as [t1 m1]. exists t1, m1. destruct Hpq as [P1 P2 P3 P4]. split; [|split; [|split; auto]].
  - apply (it_tasks_In he Hhe). apply (chain_mid _ _ _ _ P3). apply Hp.
  - rewrite map_app in P4. simpl in P4. apply NoDup_remove_2 in P4. rewrite in_app_iff in P4. tauto.
  - apply Forall_app in P2 as [_ P2]. inversion P2; auto.
Qed.

Lemma loop_lower : forall fuel stack r r' L, Forall ipath stack ->
  recursion_loop he fuel lf g null stack r = Ok r' -> NoDup L ->
  (forall q, In q L -> ipath q /\ exists p s, In p stack /\ q = p ++ s) -> length L <= fuel.
Proof.
  induction fuel as [|fuel IH]; intros stack r r' L Hs E Hn HL.
  - destruct stack; [|discriminate]. destruct L as [|q L]; auto. destruct (HL q (or_introl eq_refl)) as (_ & p & s & [] & _).
  - destruct stack as [|p stack].
    { destruct L as [|q L]; [simpl; lia|]. destruct (HL q (or_introl eq_refl)) as (_ & p & s & [] & _). }
    cbn [recursion_loop] in E. apply bind_ok in E as ([st1 r1] & Ev & E). cbn [fst snd] in E.
    inversion Hs as [|? ? Hp Hs']; subst.
    pose proof (remove_length_le path_dec p L Hn) as Hl.
    assert (length (remove path_dec p L) <= fuel); [|lia].
    apply (IH st1 r1 r'); auto.
    + eapply pushed_ipath; eauto.
    + apply remove_nodup; auto.
    + intros q Hq. apply in_remove in Hq as [Hq Hne]. destruct (HL q Hq) as (Hi & p1 & s & Hp1 & ->). split; auto.
      destruct Hp1 as [<-|Hp1].
      * destruct s as [|x s]; [rewrite app_nil_r in Hne; congruence|]. exists (p ++ [x]), s. rewrite <- app_assoc. split; auto.
        eapply next_pushed; eauto.
      * exists p1, s. split; auto. destruct (visit_spec he Hhe g null lf p _ _ _ _ _ Ev) as (H1 & _). apply H1. auto.
Qed.

(** ** At most one round per path *)
Lemma snoc_inj {A} (l : list A) x y : l ++ [x] = l ++ [y] -> x = y.
Proof. intros E. apply app_inv_head in E. congruence. Qed.
Lemma push_nodup p (t : nat) : forall ms st, NoDup ms -> NoDup st -> (forall m, In m ms -> ~ In (p ++ [(t, m)]) st) ->
  NoDup (fold_left (fun (st : list path) m' => (p ++ [(t, m')]) :: st) ms st).
Proof.
  induction ms as [|m ms IH]; intros st Hm Hst Hd; auto. inversion Hm; subst. simpl. apply IH; auto.
  - constructor; auto. apply Hd. left; auto.
  - intros m' Hi [E|Hi']; [|apply (Hd m'); auto; right; auto]. apply snoc_inj in E. congruence.
Qed.
Lemma visit_nodup p : forall tasks stack r stack' r', NoDup tasks -> NoDup stack ->
  (forall t m, In t tasks -> ~ In (p ++ [(t, m)]) stack) ->
  visit_tasks he lf g null p (lastm p) tasks stack r = Ok (stack', r') -> NoDup stack'.
Proof.
  induction tasks as [|t tasks IH]; intros stack r stack' r' Ht Hst Hd E.
  - injection E as <- <-. auto.
  - inversion Ht as [|? ? Hnt Ht']; subst. cbn [visit_tasks] in E. destruct (cycle_from t p) as [c|] eqn:Ec.
    + destruct (c ++ [(t, lastm p)]) as [|[t0 m0] rest].
      * eapply (IH stack); eauto. intros t1 m1 Hi. apply Hd. right; auto.
      * apply bind_ok in E as (es & _ & E). eapply (IH stack); eauto. intros t1 m1 Hi. apply Hd. right; auto.
    + eapply IH; [auto| | |exact E].
      * apply push_nodup; auto.
        -- eapply Permutation_NoDup; [apply Permutation_sym, (ho_methods_ok _ Hhe)|apply Hfromnd].
        -- intros m _. apply Hd. left; auto.
      * intros t1 m1 Hi Hi'. apply push_In in Hi' as [Hi'|(m & _ & Eq)].
        -- apply (Hd t1 m1); auto. right; auto.
        -- apply snoc_inj in Eq. congruence.
Qed.

Definition antichain (st : list path) : Prop :=
  NoDup st /\ forall p q s, In p st -> In q st -> q = p ++ s -> s = [].
Lemma antichain_step p st st1 r r1 : antichain (p :: st) ->
  visit_tasks he lf g null p (lastm p) (it_tasks he g (lastm p)) st r = Ok (st1, r1) -> antichain st1.
Proof.
  intros [Hn Ha] Ev. destruct (visit_spec he Hhe g null lf p _ _ _ _ _ Ev) as (H1 & _). inversion Hn as [|? ? Hnp Hn']; subst.
  assert (forall x s, ~ In (p ++ x :: s) st) as Hno.
  { intros x s Hi. specialize (Ha p (p ++ x :: s) (x :: s) (or_introl eq_refl) (or_intror Hi) eq_refl). discriminate. }
  split.
  - eapply visit_nodup; [| | |exact Ev]; auto.
    + eapply Permutation_NoDup; [apply Permutation_sym, (ho_tasks_ok _ Hhe)|apply Htond].
  - intros a b s Hia Hib E. apply H1 in Hia as [Hia|(t & m & _ & _ & _ & ->)]; apply H1 in Hib as [Hib|(t' & m' & _ & _ & _ & ->)].
    + apply (Ha a b s); auto; right; auto.
    + destruct s as [|y s _] using rev_ind; auto. rewrite app_assoc in E. apply app_inj_tail in E as [E _].
      rewrite E in *. assert (s = []) as -> by (apply (Ha a (a ++ s) s); [right; auto|left; auto|auto]).
      exfalso. apply Hnp. rewrite app_nil_r. auto.
    + exfalso. rewrite E, <- app_assoc in Hib. apply (Hno _ _ Hib).
    + rewrite <- app_assoc in E. apply app_inv_head in E. destruct s; auto. discriminate.
Qed.

Lemma loop_upper : (forall c t, icycle g c t -> exists es, ctx he g null lf c t = Ok es) ->
  forall fuel stack r L, Forall ipath stack -> antichain stack ->
  (forall p s, In p stack -> ipath (p ++ s) -> In (p ++ s) L) -> length L <= fuel ->
  exists r', recursion_loop he fuel lf g null stack r = Ok r'.
Proof.
  intros Hc. induction fuel as [|fuel IH]; intros stack r L Hs Ha HL Hl.
  - destruct stack as [|p stack]; [simpl; eauto|]. inversion Hs as [|? ? Hp Hs']; subst.
    assert (In p L) as Hi by (rewrite <- (app_nil_r p); apply HL; [left; auto|rewrite app_nil_r; auto]).
    destruct L; [destruct Hi|simpl in Hl; lia].
  - destruct stack as [|p stack]; [simpl; eauto|]. inversion Hs as [|? ? Hp Hs']; subst.
    assert (In p L) as Hi by (rewrite <- (app_nil_r p); apply HL; [left; auto|rewrite app_nil_r; auto]).
    destruct (visit_fuelless he Hhe g null lf p (it_tasks he g (lastm p)) stack r) as (st1 & r1 & Ev & _).
    { intros t c Ht Ec. apply (it_tasks_In he Hhe) in Ht. apply Hc. eapply event_cycle; eauto. }
    cbn [recursion_loop]. rewrite Ev. cbn [obind fst snd].
    apply (IH st1 r1 (remove path_dec p L)).
    + eapply pushed_ipath; eauto.
    + eapply antichain_step; eauto.
    + intros q s Hq Hqs. destruct (visit_spec he Hhe g null lf p _ _ _ _ _ Ev) as (H1 & _).
      apply H1 in Hq as [Hq|(t & m & Ht & Hn & Hm & ->)].
      * apply in_in_remove; [|apply HL; [right|]; auto]. intros E. destruct Ha as [Hnd Ha].
        assert (s = []) as -> by (apply (Ha q p s); [right|left|]; auto). rewrite app_nil_r in E. subst q.
        inversion Hnd; auto.
      * rewrite <- app_assoc in *. apply in_in_remove; [|apply HL; [left|]; auto].
        intros E. assert (length (p ++ [(t, m)] ++ s) = length p) as El by congruence. rewrite !app_length in El. simpl in El. unfold path in *. lia.
    + pose proof (remove_length_lt path_dec L p Hi). unfold path in *. lia.
Qed.

Lemma initial_antichain : antichain (initial_stack he g).
Proof.
  assert (forall ts st, NoDup ts -> NoDup st -> (forall t m, In t ts -> ~ In [(t, m)] st) ->
    NoDup (fold_left (fun st t => fold_left (fun (st : list path) m => [(t, m)] :: st) (it_methods he g t) st) ts st)) as Hnd.
  { induction ts as [|t ts IH]; intros st Ht Hst Hd; auto. inversion Ht; subst. simpl. apply IH; auto.
    - apply (push_nodup [] t); auto.
      + eapply Permutation_NoDup; [apply Permutation_sym, (ho_methods_ok _ Hhe)|apply Hfromnd].
      + intros m _. apply Hd. left; auto.
    - intros t1 m1 Hi Hi'. apply (push_In [] t) in Hi' as [Hi'|(m & _ & Eq)].
      + apply (Hd t1 m1); auto. right; auto.
      + injection Eq as -> ->. auto. }
  split.
  - unfold initial_stack. apply Hnd; [|constructor|intros t m _ []].
    unfold it_keys. eapply Permutation_NoDup; [apply Permutation_sym, (ho_keys_ok _ Hhe)|]. apply seq_NoDup.
  - intros p q s Hp Hq E. apply (initial_In he Hhe g Hfrom) in Hp as (t & m & _ & ->). apply (initial_In he Hhe g Hfrom) in Hq as (t' & m' & _ & ->).
    injection E as _ _ E. auto.
Qed.

(** ** From all tasks *)
Lemma ipath_first q : ipath q -> exists p s, In p (initial_stack he g) /\ q = p ++ s.
Proof.
  intros [H1 H2 _ _]. destruct q as [|[t m] q]; [congruence|]. exists [(t, m)], q. split; auto.
  apply (initial_In he Hhe g Hfrom). exists t, m. split; auto. inversion H2; auto.
Qed.
Theorem search_lower fuel r L : recursion_loop he fuel lf g null (initial_stack he g) NonRecursive = Ok r ->
  NoDup L -> Forall ipath L -> length L <= fuel.
Proof.
  intros E Hn HL. apply (loop_lower fuel (initial_stack he g) NonRecursive r L); auto; [apply initial_ipath; auto|].
  intros q Hq. rewrite Forall_forall in HL. split; auto. apply ipath_first; auto.
Qed.
Theorem search_upper fuel L : (forall c t, icycle g c t -> exists es, ctx he g null lf c t = Ok es) ->
  (forall p, ipath p -> In p L) -> length L <= fuel ->
  exists r, recursion_loop he fuel lf g null (initial_stack he g) NonRecursive = Ok r.
Proof.
  intros Hc HL Hf. eapply loop_upper; eauto; [apply initial_ipath; auto|apply initial_antichain].
Qed.
End Time.
