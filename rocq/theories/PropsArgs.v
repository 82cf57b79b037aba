(** C79: the command line. *)
From Coq Require Import String Ascii NArith Bool List Lia Permutation.
From Verif Require Import Base Token Lexer Errors Ast Parser Semantic Tdg Api Json Cli StrFacts PropsLex PropsParse PropsSem PropsIo Args SpecArgs.
Import ListNotations.
Open Scope string_scope.
Open Scope list_scope.

(** ** Single arguments *)
Definition eq_text (v : option string) : string := match v with Some v => ("=" ++ v)%string | None => "" end.
Lemma split_eq_view s : let (n, v) := split_eq s in s = (n ++ eq_text v)%string.
Proof.
  induction s as [|c s IH]; simpl; auto. destruct (Ascii.eqb_spec c "=") as [->|Hc]; auto.
  destruct (split_eq s) as [n v]. simpl. rewrite <- IH. auto.
Qed.
Lemma argument_view a : match argument_of a with
  | Escape => a = "--"
  | Long n v => a = ("--" ++ n ++ eq_text v)%string
  | Short c r => a = String "-" (String c r)
  | Plain v => v = a /\ ordinary a
  end.
Proof.
  destruct a as [|c a]; [split; auto; right; discriminate|]. destruct (Ascii.eqb_spec c "-") as [->|Hc].
  - destruct a as [|c' a]; [split; auto; left; auto|]. destruct (Ascii.eqb_spec c' "-") as [->|Hc'].
    + destruct a as [|c'' a]; [reflexivity|]. pose proof (split_eq_view (String c'' a)) as Hs.
      unfold argument_of. destruct (split_eq (String c'' a)) as [n v]. rewrite Hs. reflexivity.
    + assert (argument_of (String "-" (String c' a)) = Short c' a) as ->; auto.
      destruct c' as [[][][][][][][][]]; try reflexivity. congruence.
  - assert (argument_of (String c a) = Plain (String c a)) as ->.
    { destruct c as [[][][][][][][][]]; try reflexivity. congruence. }
    split; auto. right. congruence.
Qed.
Lemma argument_plain a : ordinary a -> argument_of a = Plain a.
Proof.
  intros [->|Ha]; [reflexivity|]. pose proof (argument_view a) as Hv. destruct (argument_of a) as [|n v|c r|v].
  - exfalso. eapply Ha; eauto.
  - exfalso. eapply Ha; eauto.
  - exfalso. eapply Ha; eauto.
  - destruct Hv as [-> _]. auto.
Qed.
Lemma short_key_view c k : short_key c = Some k -> exists n, option_names k (String "-" (String c "")) n.
Proof.
  unfold short_key. destruct (Ascii.eqb_spec c "p") as [->|_]; [intros E; injection E as <-; eexists; constructor|].
  destruct (Ascii.eqb_spec c "o") as [->|_]; [intros E; injection E as <-; eexists; constructor|discriminate].
Qed.
Lemma long_key_view n k : long_key n = Some k -> exists l, option_names k l ("--" ++ n)%string.
Proof.
  unfold long_key. destruct (String.eqb_spec n "problem-path") as [->|_]; [intros E; injection E as <-; eexists; constructor|].
  destruct (String.eqb_spec n "output-file") as [->|_]; [intros E; injection E as <-; eexists; constructor|discriminate].
Qed.

(** ** What has been given *)
Definition add (x : key * string) (g : given) : option given := set (fst x) (snd x) g.
Fixpoint add_all (ps : list (key * string)) (g : given) : option given :=
  match ps with
  | [] => Some g
  | x :: ps' => match add x g with Some g' => add_all ps' g' | None => None end
  end.
Lemma same_key_eq a b : same_key a b = true <-> a = b.
Proof. destruct a, b; simpl; split; congruence. Qed.
Lemma add_all_iff ps : forall g h : given,
  (exists g', add_all ps g = Some g' /\ forall k, g' k = h k)
  <-> (forall k, as_list (g k) ++ values k ps = as_list (h k)) /\ forall k v, In (k, v) ps -> utf8_ok v = true.
Proof.
  induction ps as [|[k v] ps IH]; intros g h; cbn [add_all values In].
  - split.
    + intros (g' & E & Hk). injection E as <-. split; [|tauto]. intros k. rewrite app_nil_r, Hk. auto.
    + intros [Hk _]. exists g. split; auto. intros k. specialize (Hk k). rewrite app_nil_r in Hk.
      destruct (g k), (h k); simpl in Hk; congruence.
  - unfold add. cbn [fst snd]. unfold set. destruct (g k) as [w|] eqn:Eg.
    { split; [intros (g' & E & _); discriminate|]. intros [Hk _]. specialize (Hk k). rewrite Eg in Hk.
      rewrite (proj2 (same_key_eq k k) eq_refl) in Hk. destruct (h k); discriminate. }
    destruct (utf8_ok v) eqn:Ev.
    2:{ split; [intros (g' & E & _); discriminate|]. intros [_ Hu]. rewrite (Hu k v (or_introl eq_refl)) in Ev. discriminate. }
    rewrite IH. split; intros [Hk Hu]; split.
    + intros k'. specialize (Hk k'). destruct (same_key k k') eqn:E.
      * apply same_key_eq in E as <-. rewrite Eg. rewrite (proj2 (same_key_eq k k) eq_refl). exact Hk.
      * destruct (same_key k' k) eqn:E'; [apply same_key_eq in E' as ->; rewrite (proj2 (same_key_eq k k) eq_refl) in E; discriminate|exact Hk].
    + intros k' v' [E|Hi]; [injection E as <- <-; auto|eauto].
    + intros k'. specialize (Hk k'). destruct (same_key k k') eqn:E.
      * apply same_key_eq in E as <-. rewrite Eg in Hk. rewrite (proj2 (same_key_eq k k) eq_refl) in Hk. exact Hk.
      * destruct (same_key k' k) eqn:E'; [apply same_key_eq in E' as ->; rewrite (proj2 (same_key_eq k k) eq_refl) in E; discriminate|exact Hk].
    + intros k' v' Hi. eauto.
Qed.

(** ** The grammar *)
Definition outcome_of (s : subcommand) (g : given) : parsed :=
  match g KDomain with Some d => Parsed s d (g KProblem) (g KOutput) | None => Usage end.
Lemma parse_piece s x ws args g : spelled x ws ->
  parse_args s (ws ++ args) None false g
  = match add x g with Some g' => parse_args s args None false g' | None => Usage end.
Proof.
  assert (forall k l n, option_names k l n -> exists c m, l = String "-" (String c "") /\ n = ("--" ++ m)%string
            /\ short_key c = Some k /\ long_key m = Some k /\ (forall v, argument_of (l ++ v) = Short c v)
            /\ argument_of n = Long m None /\ (forall v, argument_of (n ++ "=" ++ v) = Long m (Some v))) as Ho.
  { intros k l n []; [exists "p"%char, "problem-path"|exists "o"%char, "output-file"]; repeat split. }
  intros Hs. destruct Hs as [d Hd|k l n v Hk Hv|k l n v Hk Hv|k l n v Hk Hn Hv|k l n v Hk|k l n v Hk]; unfold add; cbn [fst snd app].
  - cbn [parse_args]. rewrite (argument_plain d Hd). reflexivity.
  - destruct (Ho _ _ _ Hk) as (c & m & -> & -> & E1 & E2 & E3 & E4 & E5). specialize (E3 ""). cbn [append] in E3.
    cbn [parse_args]. rewrite E3, E1. cbn [attached]. rewrite (argument_plain v Hv). reflexivity.
  - destruct (Ho _ _ _ Hk) as (c & m & -> & -> & E1 & E2 & E3 & E4 & E5).
    cbn [parse_args]. rewrite E4, E2. rewrite (argument_plain v Hv). reflexivity.
  - destruct (Ho _ _ _ Hk) as (c & m & -> & -> & E1 & E2 & E3 & E4 & E5). specialize (E3 v).
    cbn [parse_args]. rewrite E3, E1. unfold attached. destruct v as [|c' v]; [congruence|].
    destruct (Ascii.eqb_spec c' "=") as [->|_]; [exfalso; eapply Hv; eauto|reflexivity].
  - destruct (Ho _ _ _ Hk) as (c & m & -> & -> & E1 & E2 & E3 & E4 & E5). specialize (E3 ("=" ++ v)%string).
    cbn [parse_args]. rewrite E3, E1. reflexivity.
  - destruct (Ho _ _ _ Hk) as (c & m & -> & -> & E1 & E2 & E3 & E4 & E5).
    cbn [parse_args]. rewrite E5, E2. reflexivity.
Qed.
Lemma parse_written s ps args : written ps args -> forall g,
  parse_args s args None false g = match add_all ps g with Some g' => outcome_of s g' | None => Usage end.
Proof.
  induction 1 as [| |d|x ps ws args Hx _ IH]; intros g.
  - reflexivity.
  - reflexivity.
  - cbn [parse_args]. cbn [argument_of add_all]. unfold add. cbn [fst snd]. destruct (set KDomain d g); reflexivity.
  - rewrite (parse_piece s x ws args g Hx). cbn [add_all]. destruct (add x g) as [g'|]; auto.
Qed.
(** After [--] there is at most one argument. *)
Lemma parse_trailing s args g d p o : parse_args s args None true g = Parsed s d p o ->
  exists ps g', written ps ("--" :: args) /\ add_all ps g = Some g' /\ outcome_of s g' = Parsed s d p o.
Proof.
  destruct args as [|a args]; cbn [parse_args].
  - intros E. exists [], g. split; [constructor|]. split; auto.
  - destruct (set KDomain a g) as [g'|] eqn:Es; [|discriminate]. destruct args as [|b args]; cbn [parse_args].
    + intros E. exists [(KDomain, a)], g'. split; [constructor|]. split; auto. cbn [add_all]. unfold add. cbn [fst snd]. rewrite Es. auto.
    + unfold set in Es. destruct (g KDomain); [discriminate|]. destruct (utf8_ok a); [|discriminate]. injection Es as <-.
      unfold set. cbn. discriminate.
Qed.
Lemma parse_reads s : forall m args g d p o, length args <= m -> parse_args s args None false g = Parsed s d p o ->
  exists ps g', written ps args /\ add_all ps g = Some g' /\ outcome_of s g' = Parsed s d p o.
Proof.
  induction m as [|m IH]; intros args g d p o Hm E.
  { destruct args; [|simpl in Hm; lia]. exists [], g. split; [constructor|]. split; auto. }
  destruct args as [|a args]; [exists [], g; split; [constructor|]; split; auto|]. simpl in Hm.
  assert (forall k v ws rest g', length rest <= m -> spelled (k, v) ws -> a :: args = ws ++ rest -> set k v g = Some g' ->
     parse_args s rest None false g' = Parsed s d p o ->
     exists ps g', written ps (a :: args) /\ add_all ps g = Some g' /\ outcome_of s g' = Parsed s d p o) as Step.
  { intros k v ws rest g' Hr Hs Ha Es E'. destruct (IH rest g' d p o Hr E') as (ps & g'' & Hw & Eg & Eo).
    exists ((k, v) :: ps), g''. split; [rewrite Ha; constructor; auto|]. split; auto. cbn [add_all]. unfold add. cbn [fst snd]. rewrite Es. auto. }
  assert (forall k l n w, option_names k l n -> (w = l \/ w = n) -> a = w -> parse_args s args (Some k) false g = Parsed s d p o ->
     exists ps g', written ps (a :: args) /\ add_all ps g = Some g' /\ outcome_of s g' = Parsed s d p o) as Wait.
  { intros k l n w Hk Hw Ha E'. destruct args as [|b args]; cbn [parse_args] in E'; [discriminate|].
    pose proof (argument_view b) as Hb. destruct (argument_of b) as [|? ?|? ?|v]; try discriminate. destruct Hb as [-> Hb].
    destruct (set k b g) as [g'|] eqn:Es; [|discriminate]. simpl in Hm.
    apply (Step k b [a; b] args g'); auto; [lia|]. subst a. destruct Hw as [-> | ->]; [eapply sp_apart|eapply sp_apart_long]; eauto. }
  cbn [parse_args] in E. pose proof (argument_view a) as Ha. destruct (argument_of a) as [|n v|c r|v].
  - subst a. apply parse_trailing. exact E.
  - destruct (long_key n) as [k|] eqn:Ek; [|destruct v; [discriminate|destruct (String.eqb n "help"); discriminate]].
    destruct (long_key_view n k Ek) as (l & Hk). destruct v as [v|]; cbn [eq_text] in Ha.
    + destruct (set k v g) as [g'|] eqn:Es; [|discriminate]. apply (Step k v [a] args g'); auto; [lia|].
      rewrite Ha, <- app_assoc_s. eapply sp_equals_long; eauto.
    + apply (Wait k l _ a Hk); auto. right. rewrite Ha, app_nil_r_s. auto.
  - destruct (short_key c) as [k|] eqn:Ek; [|destruct (Ascii.eqb c "h"); discriminate].
    destruct (short_key_view c k Ek) as (n & Hk). destruct r as [|c' r]; cbn [attached] in E.
    + apply (Wait k _ _ a Hk); auto.
    + destruct (Ascii.eqb_spec c' "=") as [->|Hc'].
      * destruct (set k r g) as [g'|] eqn:Es; [|discriminate]. apply (Step k r [a] args g'); auto; [lia|]. rewrite Ha.
        eapply (sp_equals k _ n r Hk).
      * destruct (set k (String c' r) g) as [g'|] eqn:Es; [|discriminate]. apply (Step k (String c' r) [a] args g'); auto; [lia|]. rewrite Ha.
        eapply (sp_glued k _ n (String c' r) Hk); [discriminate|congruence].
  - destruct Ha as [-> Ha]. destruct (set KDomain a g) as [g'|] eqn:Es; [|discriminate]. apply (Step KDomain a [a] args g'); auto; [lia|].
    constructor. auto.
Qed.
Lemma parse_sub : forall args s w g t d p o, parse_args s args w t g = Parsed s d p o \/ (forall s' d p o, parse_args s args w t g <> Parsed s' d p o)
   \/ exists d p o, parse_args s args w t g = Parsed s d p o.
Proof.
  induction args as [|a args IH]; intros s w g t d p o; cbn [parse_args].
  - destruct w; [right; left; discriminate|]. destruct (g KDomain); [right; right; eauto|right; left; discriminate].
  - assert (forall k v t, let r := match set k v g with Some g' => parse_args s args None t g' | None => Usage end in
       (forall s' d p o, r <> Parsed s' d p o) \/ exists d p o, r = Parsed s d p o) as Hput.
    { intros k v t'. cbn zeta. destruct (set k v g) as [g'|]; [|left; discriminate].
      destruct (IH s None g' t' d p o) as [E|[E|E]]; [right; eauto|left; auto|right; auto]. }
    assert (forall w t, (forall s' d p o, parse_args s args w t g <> Parsed s' d p o) \/ exists d p o, parse_args s args w t g = Parsed s d p o) as Hgo.
    { intros w' t'. destruct (IH s w' g t' d p o) as [E|[E|E]]; [right; eauto|left; auto|right; auto]. }
    right. destruct t; [destruct w; [left; discriminate|apply Hput]|].
    destruct (argument_of a) as [|n v|c r|v]; destruct w as [k|]; try (left; discriminate); try apply Hput; try apply Hgo.
    + destruct (long_key n), v; [apply Hput|apply Hgo|left; discriminate|destruct (String.eqb n "help"); left; discriminate].
    + destruct (short_key c); [destruct (attached r); [apply Hput|apply Hgo]|destruct (Ascii.eqb c "h"); left; discriminate].
Qed.
Lemma parse_args_sub s args s' d p o : parse_args s args None false none_given = Parsed s' d p o -> s' = s.
Proof.
  intros E. destruct (parse_sub args s None none_given false d p o) as [E'|[E'|(d' & p' & o' & E')]]; [congruence|exfalso; eapply E'; eauto|congruence].
Qed.
Lemma subcommand_iff a s : subcommand_of a = Some s <-> a = name_of_sub s.
Proof.
  unfold subcommand_of. split.
  - destruct (String.eqb_spec a "verify") as [->|_]; [intros E; injection E as <-; auto|].
    destruct (String.eqb_spec a "metadata") as [->|_]; [intros E; injection E as <-; auto|].
    destruct (String.eqb_spec a "to_json") as [->|_]; [intros E; injection E as <-; auto|discriminate].
  - intros ->. destruct s; reflexivity.
Qed.
Lemma gives_iff ps d p o : gives ps d p o <->
  exists g', add_all ps none_given = Some g' /\ g' KDomain = Some d /\ g' KProblem = p /\ g' KOutput = o.
Proof.
  pose (h := fun k => match k with KDomain => Some d | KProblem => p | KOutput => o end).
  pose proof (add_all_iff ps none_given h) as Hi. unfold gives. split.
  - intros (H1 & H2 & H3 & Hu). destruct (proj2 Hi) as (g' & E & Hk).
    + split; auto. intros []; auto.
    + exists g'. split; auto. rewrite !Hk. auto.
  - intros (g' & E & E1 & E2 & E3). destruct (proj1 Hi) as [Hv Hu].
    + exists g'. split; auto. intros []; auto.
    + pose proof (Hv KDomain). pose proof (Hv KProblem). pose proof (Hv KOutput). simpl in *. auto.
Qed.

(** Exactly the well-formed command lines are accepted, with their meaning. *)
Theorem C79_grammar : forall args s d p o, parse_line args = Parsed s d p o <-> means args s d p o.
Proof.
  intros args s d p o. split.
  - intros E. destruct args as [|a args]; cbn [parse_line] in E; [discriminate|]. destruct (subcommand_of a) as [s'|] eqn:Es.
    + pose proof (parse_args_sub _ _ _ _ _ _ E) as ->. apply subcommand_iff in Es as ->.
      destruct (parse_reads s' _ args none_given d p o (le_n _) E) as (ps & g' & Hw & Eg & Eo). exists ps, args. split; auto. split; auto.
      apply gives_iff. exists g'. split; auto. unfold outcome_of in Eo. destruct (g' KDomain); [|discriminate]. injection Eo as -> -> ->. auto.
    + exfalso. destruct (String.eqb a "help").
      * destruct args as [|b [|]]; try discriminate. destruct (subcommand_of b); [discriminate|]. destruct (String.eqb b "help"); discriminate.
      * destruct (argument_of a) as [|n []|c r|]; try discriminate; [destruct (String.eqb n "help")|destruct (Ascii.eqb c "h")]; discriminate.
  - intros (ps & rest & -> & Hw & Hg). cbn [parse_line]. rewrite (proj2 (subcommand_iff (name_of_sub s) s) eq_refl).
    rewrite (parse_written s ps rest Hw). apply gives_iff in Hg as (g' & -> & E1 & E2 & E3). unfold outcome_of. rewrite E1, E2, E3. auto.
Qed.
Theorem C79_unambiguous : forall args s d p o s' d' p' o', means args s d p o -> means args s' d' p' o' ->
  s = s' /\ d = d' /\ p = p' /\ o = o'.
Proof. intros args s d p o s' d' p' o' H1 H2. apply C79_grammar in H1, H2. rewrite H1 in H2. injection H2. auto. Qed.

(** The order of the pieces and the way they are written do not matter. *)
Lemma values_perm ps ps' k : Permutation ps ps' -> Permutation (values k ps) (values k ps').
Proof.
  induction 1 as [|[k1 v1] ps ps' _ IH|[k1 v1] [k2 v2] ps|ps ps' ps'' _ IH1 _ IH2]; cbn [values]; auto.
  - destruct (same_key k k1); auto.
  - destruct (same_key k k1), (same_key k k2); auto using perm_swap.
  - eauto using perm_trans.
Qed.
Theorem C79_any_order : forall s ps ps' rest rest' d p o, written ps rest -> written ps' rest' -> Permutation ps ps' ->
  means (name_of_sub s :: rest) s d p o -> means (name_of_sub s :: rest') s d p o.
Proof.
  intros s ps ps' rest rest' d p o Hw Hw' Hp Hm. apply C79_grammar in Hm. cbn [parse_line] in Hm.
  rewrite (proj2 (subcommand_iff (name_of_sub s) s) eq_refl), (parse_written s ps rest Hw) in Hm.
  exists ps', rest'. split; auto. split; auto. assert (gives ps d p o) as (H1 & H2 & H3 & Hu).
  { apply gives_iff. destruct (add_all ps none_given) as [g'|]; [|discriminate]. exists g'. split; auto.
    unfold outcome_of in Hm. destruct (g' KDomain); [|discriminate]. injection Hm as -> -> ->. auto. }
  assert (forall k o, values k ps = as_list o -> values k ps' = as_list o) as Hv.
  { intros k [v|] Ev; pose proof (values_perm ps ps' k Hp) as Hk; rewrite Ev in Hk; simpl in *.
    - apply Permutation_length_1_inv in Hk. auto.
    - apply Permutation_nil in Hk. auto. }
  repeat split; auto; [apply (Hv KDomain (Some d)); auto|]. intros k v Hi. apply (Hu k v). eapply Permutation_in; [apply Permutation_sym; eauto|auto].
Qed.

(** The command lines of the README. *)
Theorem C79_documented : forall d p, ordinary d -> ordinary p -> utf8_ok d = true -> utf8_ok p = true ->
  means ["verify"; d] SubVerify d None None
  /\ means ["verify"; d; "-p"; p] SubVerify d (Some p) None
  /\ means ["metadata"; d] SubMetadata d None None.
Proof.
  intros d p Hd Hp Ud Up.
  assert (written [(KDomain, d)] [d]) as W1 by (apply (wr_piece (KDomain, d) [] [d] []); constructor; auto).
  assert (gives [(KDomain, d)] d None None) as G1 by (repeat split; intros k v [E|[]]; injection E as <- <-; auto).
  split; [|split].
  - eexists _, _. split; [reflexivity|]. eauto.
  - exists [(KDomain, d); (KProblem, p)], [d; "-p"; p]. split; auto. split.
    + apply (wr_piece (KDomain, d) [(KProblem, p)] [d]); [constructor; auto|].
      apply (wr_piece (KProblem, p) [] ["-p"; p] []); [eapply sp_apart; [constructor|auto]|constructor].
    + repeat split. intros k v [E|[E|[]]]; injection E as <- <-; auto.
  - eexists _, _. split; [reflexivity|]. eauto.
Qed.
(** Every path can be named, even one that starts with a hyphen. *)
Theorem C79_any_path : forall s d p o, utf8_ok d = true -> utf8_ok p = true -> utf8_ok o = true ->
  means [name_of_sub s; "--problem-path=" ++ p; "--output-file=" ++ o; "--"; d]%string s d (Some p) (Some o).
Proof.
  intros s d p o Ud Up Uo. exists [(KProblem, p); (KOutput, o); (KDomain, d)], ["--problem-path=" ++ p; "--output-file=" ++ o; "--"; d]%string.
  split; auto. split.
  - apply (wr_piece (KProblem, p) _ ["--problem-path" ++ "=" ++ p]%string); [eapply sp_equals_long; constructor|].
    apply (wr_piece (KOutput, o) _ ["--output-file" ++ "=" ++ o]%string); [eapply sp_equals_long; constructor|]. constructor.
  - repeat split. intros k v [E|[E|[E|[]]]]; injection E as <- <-; auto.
Qed.

(** Exactly when the help is shown. *)
Lemma help_argument h : help_flag h <-> match argument_of h with Long n v => n = "help" /\ v = None | Short c _ => c = "h"%char | _ => False end.
Proof.
  split.
  - intros [->|(r & ->)]; [split; reflexivity|reflexivity].
  - pose proof (argument_view h) as Hv. destruct (argument_of h) as [|n v|c r|v]; try tauto.
    + intros [-> ->]. left. exact Hv.
    + intros ->. right. exists r. exact Hv.
Qed.
Lemma parse_laid s ps ws args : laid_out ps ws -> forall g,
  parse_args s (ws ++ args) None false g = match add_all ps g with Some g' => parse_args s args None false g' | None => Usage end.
Proof.
  induction 1 as [|x ps ws ws' Hx _ IH]; intros g; [reflexivity|]. rewrite <- app_assoc, (parse_piece s x ws _ g Hx). cbn [add_all].
  destruct (add x g) as [g'|]; auto.
Qed.
Lemma trailing_help s : forall args w g, parse_args s args w true g <> Help.
Proof.
  induction args as [|a args IH]; intros w g; cbn [parse_args]; [destruct w; [|destruct (g KDomain)]; discriminate|].
  destruct w; [discriminate|]. destruct (set KDomain a g); [apply IH|discriminate].
Qed.
Lemma parse_helps s : forall m args g, length args <= m -> parse_args s args None false g = Help ->
  exists ps ws h rest g', args = ws ++ h :: rest /\ laid_out ps ws /\ help_flag h /\ add_all ps g = Some g'.
Proof.
  induction m as [|m IH]; intros args g Hm E.
  { destruct args; [|simpl in Hm; lia]. simpl in E. destruct (g KDomain); discriminate. }
  destruct args as [|a args]; [simpl in E; destruct (g KDomain); discriminate|]. simpl in Hm.
  assert (forall k v ws rest g', length rest <= m -> spelled (k, v) ws -> a :: args = ws ++ rest -> set k v g = Some g' ->
     parse_args s rest None false g' = Help ->
     exists ps ws h rest g', a :: args = ws ++ h :: rest /\ laid_out ps ws /\ help_flag h /\ add_all ps g = Some g') as Step.
  { intros k v ws rest g' Hr Hs Ha Es E'. destruct (IH rest g' Hr E') as (ps & ws' & h & rest' & g'' & -> & Hl & Hh & Eg).
    exists ((k, v) :: ps), (ws ++ ws'), h, rest', g''. split; [rewrite <- app_assoc; exact Ha|]. split; [constructor; auto|]. split; auto.
    cbn [add_all]. unfold add. cbn [fst snd]. rewrite Es. auto. }
  assert (forall k l n w, option_names k l n -> (w = l \/ w = n) -> a = w -> parse_args s args (Some k) false g = Help ->
     exists ps ws h rest g', a :: args = ws ++ h :: rest /\ laid_out ps ws /\ help_flag h /\ add_all ps g = Some g') as Wait.
  { intros k l n w Hk Hw Ha E'. destruct args as [|b args]; cbn [parse_args] in E'; [discriminate|].
    pose proof (argument_view b) as Hb. destruct (argument_of b) as [|? ?|? ?|v]; try discriminate. destruct Hb as [-> Hb].
    destruct (set k b g) as [g'|] eqn:Es; [|discriminate]. simpl in Hm.
    apply (Step k b [a; b] args g'); auto; [lia|]. subst a. destruct Hw as [-> | ->]; [eapply sp_apart|eapply sp_apart_long]; eauto. }
  assert (help_flag a -> exists ps ws h rest g', a :: args = ws ++ h :: rest /\ laid_out ps ws /\ help_flag h /\ add_all ps g = Some g') as Now.
  { intros Hh. exists [], [], a, args, g. split; auto. split; [constructor|]. auto. }
  pose proof (help_argument a) as Hhelp. cbn [parse_args] in E. pose proof (argument_view a) as Ha. destruct (argument_of a) as [|n v|c r|v].
  - exfalso. eapply trailing_help; eauto.
  - destruct (long_key n) as [k|] eqn:Ek.
    2:{ destruct v; [discriminate|]. destruct (String.eqb_spec n "help"); [|discriminate]. apply Now, Hhelp. auto. }
    destruct (long_key_view n k Ek) as (l & Hk). destruct v as [v|]; cbn [eq_text] in Ha.
    + destruct (set k v g) as [g'|] eqn:Es; [|discriminate]. apply (Step k v [a] args g'); auto; [lia|].
      rewrite Ha, <- app_assoc_s. eapply sp_equals_long; eauto.
    + apply (Wait k l _ a Hk); auto. right. rewrite Ha, app_nil_r_s. auto.
  - destruct (short_key c) as [k|] eqn:Ek.
    2:{ destruct (Ascii.eqb_spec c "h"); [|discriminate]. apply Now, Hhelp. auto. }
    destruct (short_key_view c k Ek) as (n & Hk). destruct r as [|c' r]; cbn [attached] in E.
    + apply (Wait k _ _ a Hk); auto.
    + destruct (Ascii.eqb_spec c' "=") as [->|Hc'].
      * destruct (set k r g) as [g'|] eqn:Es; [|discriminate]. apply (Step k r [a] args g'); auto; [lia|]. rewrite Ha.
        eapply (sp_equals k _ n r Hk).
      * destruct (set k (String c' r) g) as [g'|] eqn:Es; [|discriminate]. apply (Step k (String c' r) [a] args g'); auto; [lia|]. rewrite Ha.
        eapply (sp_glued k _ n (String c' r) Hk); [discriminate|congruence].
  - destruct Ha as [-> Ha]. destruct (set KDomain a g) as [g'|] eqn:Es; [|discriminate]. apply (Step KDomain a [a] args g'); auto; [lia|].
    constructor. auto.
Qed.
Lemma no_repetition_iff ps : no_repetition ps <-> exists g', add_all ps none_given = Some g'.
Proof.
  unfold no_repetition. split.
  - intros [Hl Hu]. pose (h := fun k => match values k ps with v :: _ => Some v | [] => None end).
    destruct (proj2 (add_all_iff ps none_given h)) as (g' & E & _); [|eauto]. split; auto.
    intros k. specialize (Hl k). unfold h. simpl. destruct (values k ps) as [|v [|w l]]; simpl in *; auto. lia.
  - intros (g' & E). destruct (proj1 (add_all_iff ps none_given g')) as [Hv Hu]; [exists g'; auto|]. split; auto.
    intros k. specialize (Hv k). simpl in Hv. rewrite Hv. destruct (g' k); simpl; lia.
Qed.
Theorem C79_help : forall args, parse_line args = Help <-> asks_for_help args.
Proof.
  intros args. split.
  - intros E. destruct args as [|a args]; cbn [parse_line] in E; [discriminate|]. destruct (subcommand_of a) as [s|] eqn:Es.
    + apply subcommand_iff in Es as ->. destruct (parse_helps s _ args none_given (le_n _) E) as (ps & ws & h & rest & g' & -> & Hl & Hh & Eg).
      do 4 right. exists s, ps, ws, h, rest. split; auto. split; auto. split; auto. apply no_repetition_iff. eauto.
    + destruct (String.eqb_spec a "help") as [->|_].
      * destruct args as [|b [|]]; [left; auto| |discriminate]. destruct (subcommand_of b) as [s|] eqn:Eb.
        -- apply subcommand_iff in Eb as ->. right. right. left. eauto.
        -- destruct (String.eqb_spec b "help") as [->|_]; [right; left; auto|discriminate].
      * right. right. right. left. exists a, args. split; auto. apply help_argument.
        destruct (argument_of a) as [|n [v|]|c r|v]; try discriminate.
        -- destruct (String.eqb_spec n "help"); [auto|discriminate].
        -- destruct (Ascii.eqb_spec c "h"); [auto|discriminate].
  - intros [->|[->|[(s & ->)|[(h & rest & -> & Hh)|(s & ps & ws & h & rest & -> & Hl & Hn & Hh)]]]]; [reflexivity|reflexivity|destruct s; reflexivity| |].
    + cbn [parse_line]. destruct Hh as [->|(r & ->)]; [reflexivity|]. reflexivity.
    + cbn [parse_line]. rewrite (proj2 (subcommand_iff (name_of_sub s) s) eq_refl), (parse_laid s ps ws _ Hl).
      apply no_repetition_iff in Hn as (g' & ->). apply help_argument in Hh. cbn [parse_args].
      destruct (argument_of h) as [|n v|c r|v]; try tauto; [destruct Hh as [-> ->]|subst c]; reflexivity.
Qed.

Section Process.
Context `{Unicode} `{Floats}.
Variable he : hash_env.
Variable swap : bool.
Variables fuel lfuel : nat.
Variable sys : system.
Notation process := (process he swap fuel lfuel sys).

(** Exit status 2 says that the command line is wrong, and nothing else; then
    no file is touched. *)
Theorem C79_status : forall args files out status, process args = (files, Exit out status) ->
  (status = 0%N \/ status = 2%N)
  /\ (status = 2%N -> files = [] /\ out = [] /\ ~ asks_for_help args /\ forall s d p o, ~ means args s d p o)
  /\ (status = 0%N -> files = [] /\ out = [] /\ asks_for_help args \/ exists s d p o, means args s d p o).
Proof.
  intros args files out status E. unfold Args.process in E. destruct (parse_line args) as [| |s d p o] eqn:Ep.
  - apply C79_help in Ep. injection E as <- <- <-. split; auto. split; [discriminate|auto].
  - injection E as <- <- <-. split; auto. split; [|discriminate]. intros _. split; auto. split; auto. split; [rewrite <- C79_help; congruence|].
    intros s d p o Hm. apply C79_grammar in Hm. congruence.
  - injection E as <- E. apply C34_status_zero in E as ->. split; auto. split; [discriminate|]. intros _. right.
    exists s, d, p, o. apply C79_grammar. auto.
Qed.
(** Only the named files are read, the domain first; metadata reads the domain only. *)
Theorem C79_reads : forall args s d p o, means args s d p o ->
  fst (process args) = [d] \/ exists q, p = Some q /\ s <> SubMetadata /\ fst (process args) = [d; q] /\ exists t, reads_as sys d = Content t.
Proof.
  intros args s d p o Hm. apply C79_grammar in Hm. unfold Args.process. rewrite Hm. cbn [fst]. unfold files_read.
  destruct s; auto; destruct p as [q|]; auto; destruct (reads_as sys d) eqn:Er; auto; right; exists q; repeat split; auto; try discriminate; eauto.
Qed.
(** Files are written only by [to_json], under the given name. *)
Theorem C79_writes : forall args files out status name text, process args = (files, Exit out status) -> In (Cli.Written name text) out ->
  exists d p, means args SubSerialize d p (Some name)
  /\ exists dom prob, reads_as sys d = Content dom /\ to_json swap fuel dom prob = Ok text
     /\ match p with None => prob = None | Some q => exists t, reads_as sys q = Content t /\ prob = Some t end.
Proof.
  intros args files out status name text E Hi. unfold Args.process in E. destruct (parse_line args) as [| |s d p o] eqn:Ep;
    [injection E as <- <- <-; destruct Hi..|]. injection E as <- E. apply C79_grammar in Ep.
  assert (forall e, print_error e <> Exit out status) as Hp.
  { intros e Ee. unfold print_error in Ee. destruct (show_parsing_error e); [|discriminate]. injection Ee as <- _. destruct Hi as [Hi|[]]. discriminate. }
  assert (forall b r, print_json b (destination_of sys o) r = Exit out status -> o = Some name /\ r = Ok text) as Hj.
  { intros b r Ej. unfold print_json in Ej. destruct r as [t|e|q|]; try discriminate; [|exfalso; eapply Hp; eauto].
    unfold destination_of in Ej. destruct o as [nm|].
    - destruct (current_dir sys) as [dir|]; [|discriminate]. destruct (write_error sys (push dir nm)).
      + injection Ej as <- _. destruct Hi as [Hi|[]]. discriminate.
      + injection Ej as <- _. destruct Hi as [Hi|[Hi|[]]]; [injection Hi as -> ->; auto|discriminate].
    - injection Ej as <- _. destruct Hi as [Hi|[Hi|[]]]; discriminate. }
  assert (forall m, Exit [error_line m] 0 <> Exit out status) as He.
  { intros m Ee. injection Ee as <- _. destruct Hi as [Hi|[]]. discriminate. }
  destruct s; cbn [command_of] in E.
  - exfalso. destruct (reads_as sys d) as [dom|m]; cbn [main] in E; [|eapply He; eauto].
    assert (forall r, print_verification r <> Exit out status) as Hv.
    { intros r Er. unfold print_verification in Er. destruct r as [ws|e|q|]; try discriminate; [|eapply Hp; eauto].
      injection Er as <- _. apply in_app_iff in Hi as [Hi|[Hi|[]]]; [|discriminate]. apply in_map_iff in Hi as (w & Ew & _). discriminate. }
    destruct p as [q|]; cbn [option_map] in E; [destruct (reads_as sys q)|]; try (eapply Hv; eauto; fail). eapply He; eauto.
  - exfalso. destruct (reads_as sys d) as [dom|m]; cbn [main] in E; [|eapply He; eauto].
    destruct (get_metadata he fuel lfuel dom); try discriminate; [|eapply Hp; eauto]. injection E as <- _. destruct Hi as [Hi|[]]. discriminate.
  - destruct (reads_as sys d) as [dom|m] eqn:Ed; cbn [main] in E; [|exfalso; eapply He; eauto].
    destruct p as [q|]; cbn [option_map] in E; [destruct (reads_as sys q) as [t|m] eqn:Eq; [|exfalso; eapply He; eauto]|];
      apply Hj in E as [-> E]; exists d; eexists; (split; [exact Ep|]); exists dom; eexists; (split; [auto|]); (split; [exact E|]); simpl; eauto.
Qed.
(** Arguments without effect: the output file of [verify], all options of [metadata]. *)
Theorem C79_ignored : forall args args' s d p p' o o', means args s d p o -> means args' s d p' o' ->
  (s = SubVerify /\ p = p' \/ s = SubMetadata) -> process args = process args'.
Proof.
  intros args args' s d p p' o o' Hm Hm' Hs. apply C79_grammar in Hm, Hm'. unfold Args.process. rewrite Hm, Hm'.
  destruct Hs as [[-> ->]| ->]; [reflexivity|]. unfold files_read, command_of. destruct p, p'; auto.
Qed.
End Process.

(** False: an option takes the next argument, whatever it is. *)
Theorem C79_dash_refuted : exists p, utf8_ok p = true /\ ~ means ["verify"; "d"; "-p"; p] SubVerify "d" (Some p) None
  /\ means ["verify"; "d"; "-p=" ++ p]%string SubVerify "d" (Some p) None.
Proof.
  exists "-x". split; auto. split; rewrite <- C79_grammar; [discriminate|reflexivity].
Qed.
(** False: a wrong option of [metadata] is noticed. *)
Definition sys0 : system :=
  mkSystem (fun f => if String.eqb f "d" then Content "(define (domain d) (:task a :parameters ()))" else ReadError "No such file")
    (Some "/home") (fun p => p) (fun _ => None).
Theorem C79_missing_problem_refuted : exists args files text,
  @process uni0 flo0 env_id false 300 300 sys0 args = (files, Exit [Stdout text] 0)
  /\ means args SubMetadata "d" (Some "nowhere") None /\ reads_as sys0 "nowhere" = ReadError "No such file".
Proof.
  exists ["metadata"; "d"; "-p"; "nowhere"]. eexists. eexists. split; [vm_compute; reflexivity|]. split; [|reflexivity].
  apply C79_grammar. reflexivity.
Qed.
(** A run that writes a file. *)
Example C79_example : exists text, @process uni0 flo0 env_id false 300 300 sys0 ["to_json"; "-oout.json"; "--"; "d"]
  = (["d"], Exit [Cli.Written "out.json" text; Stdout "Result successfully written to out.json"] 0).
Proof. eexists. vm_compute. reflexivity. Qed.
Example C79_usage_examples : parse_line [] = Usage /\ parse_line ["verify"] = Usage /\ parse_line ["verify"; "d"; "e"] = Usage
  /\ parse_line ["verify"; "d"; "-p"; "a"; "-p"; "b"] = Usage /\ parse_line ["verify"; "d"; "--problem=a"] = Usage
  /\ parse_line ["verify"; "d"; "-p"] = Usage /\ parse_line ["verify"; "-h"] = Help /\ parse_line ["verify"; "-p"; "-h"] = Usage.
Proof. repeat split. Qed.

Definition C79_assumptions := (@C79_grammar, @C79_help, @C79_unambiguous, @C79_any_order, @C79_documented, @C79_any_path, @C79_status, @C79_reads, @C79_writes, @C79_ignored,
  @C79_dash_refuted, @C79_missing_problem_refuted).
