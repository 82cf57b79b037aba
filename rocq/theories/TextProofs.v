(** Lemmas about report texts (C46-C48). *)
From Coq Require Import String Ascii NArith ZArith Bool List Lia PeanoNat Permutation.
From Verif Require Import Base Token Lexer Errors Ast AstLines Parser Graph Semantic Tdg Api Cli StrFacts SpecLex LexProofs LexProofs2
  PropsLex PrintText SpecIo JsonProofs SpecSim SimTop RenText SpecText.
Import ListNotations.
Open Scope list_scope.
Open Scope nat_scope.

(** ** Names *)
Lemma sem_words_sim f e e' : sem_sim (ren_uniform f) eq e e' -> sem_words e' = map f (sem_words e).
Proof.
  destruct 1; try reflexivity; cbn [sem_words map];
    match goal with
    | Hx : dup_sim _ _ _ _ |- _ => destruct Hx; reflexivity
    | Hx : undef_sim _ _ _ _ |- _ => destruct Hx; reflexivity
    | Hx : arity_sim _ _ _ _ |- _ => destruct Hx; reflexivity
    | Hx : type_sim _ _ _ _ |- _ => destruct Hx as [g x y s a a' Hg _]; unfold type_words; cbn [ty_var ty_expected ty_found];
        replace (g s) with (f s) by (simpl in Hg; intuition congruence); destruct x, y; reflexivity
    end.
Qed.
Lemma cycle_of_ren rn r : cycle_of (ren_recursion rn r) = ren_cycle rn (cycle_of r).
Proof. destruct r; reflexivity. Qed.
(** A list that is mapped to itself by a function moving [x] outside it does not contain [x]. *)
Lemma fixed_list (f : string -> string) x l : map f l = l -> injective f -> f x <> x -> ~ In (f x) l -> ~ In x l.
Proof. intros E Hf Hx Hn Hi. apply Hn. rewrite <- E. apply in_map; auto. Qed.

(** ** Digits and words *)
Lemma numeral_show n : numeral (show_N n) n.
Proof. apply show_N_spec. Qed.
Lemma digit_not (c : ascii) : is_digit c = true -> c <> ":"%char /\ c <> ","%char /\ c <> "."%char /\ c <> " "%char.
Proof. intros Hd. repeat split; intros ->; vm_compute in Hd; discriminate. Qed.
Definition quiet (c : string) : Prop := match c with EmptyString => True | String c _ => is_digit c = false end.
Lemma show_N_app a b r r' : quiet r -> quiet r' -> (show_N a ++ r)%string = (show_N b ++ r')%string -> a = b /\ r = r'.
Proof.
  intros Hr Hr' E. destruct (show_N_spec a) as (Ha & _ & _), (show_N_spec b) as (Hb & _ & _).
  destruct (span_inj (fun c => is_digit c = true) (show_N a) (show_N b) r r' Ha Hb) as [E1 E2]; auto using show_N_inj.
  - destruct r; auto. simpl in Hr. congruence.
  - destruct r'; auto. simpl in Hr'. congruence.
Qed.
Lemma show_nat_app a b r r' : quiet r -> quiet r' -> (show_nat a ++ r)%string = (show_nat b ++ r')%string -> a = b /\ r = r'.
Proof. intros Hr Hr' E. apply show_N_app in E as [E1 E2]; auto. split; auto. lia. Qed.
Lemma line_app a b x y : ("line " ++ show_N a ++ ": " ++ x)%string = ("line " ++ show_N b ++ ": " ++ y)%string -> a = b /\ x = y.
Proof.
  intros E. cbn [append] in E. injection E as E. apply show_N_app in E as [-> E]; [|reflexivity|reflexivity].
  cbn [append] in E. injection E as ->. auto.
Qed.

Definition a_word (s : string) : Prop := str_all word_byte s.
Definition stops (r : string) : Prop := match r with EmptyString => True | String c _ => c = " "%char \/ c = "'"%char \/ c = "."%char \/ c = "]"%char \/ c = ")"%char end.
Lemma stops_not c : c = " "%char \/ c = "'"%char \/ c = "."%char \/ c = "]"%char \/ c = ")"%char -> ~ word_byte c.
Proof. intros [->|[->|[->|[->| ->]]]] [E|[E|E]]; vm_compute in E; discriminate. Qed.
Lemma word_app a b r r' : a_word a -> a_word b -> stops r -> stops r' ->
  (a ++ r)%string = (b ++ r')%string -> a = b /\ r = r'.
Proof.
  intros Ha Hb Hr Hr' E. apply (span_inj word_byte) in E; auto.
  - destruct r; auto. apply stops_not; auto.
  - destruct r'; auto. apply stops_not; auto.
Qed.
Lemma append_inj_l (a b c : string) : (a ++ b)%string = (a ++ c)%string -> b = c.
Proof. induction a; simpl; intros E; auto. injection E; auto. Qed.
Lemma append_cons_nil (s : string) (c : ascii) r : (s ++ String c r)%string <> ""%string.
Proof. destruct s; discriminate. Qed.
(** The last byte of a text. *)
Lemma append_last (a b : string) c d : (a ++ String c "")%string = (b ++ String d "")%string -> a = b /\ c = d.
Proof.
  revert b. induction a as [|x a IH]; intros [|y b] E; simpl in E; injection E; intros; subst; auto.
  - destruct b; discriminate.
  - destruct a; discriminate.
  - destruct (IH b H); subst; auto.
Qed.

(** ** Messages *)
Lemma dup_inj d d' : a_word (dup_symbol d) -> a_word (dup_symbol d') -> show_dup d = show_dup d' -> d = d'.
Proof.
  destruct d as [s a b], d' as [s' a' b']. cbn [dup_symbol]. unfold show_dup. cbn [dup_symbol dup_first dup_second].
  intros Hs Hs' E. cbn [append] in E. injection E as E. apply word_app in E as [-> E]; auto; [|cbn; auto|cbn; auto].
  injection E as E. apply show_N_app in E as [-> E]; [|reflexivity|reflexivity].
  injection E as E. apply show_N_app in E as [-> E]; [|reflexivity|reflexivity]. auto.
Qed.
Lemma undef_tail k u k' u' : a_word k -> a_word k' -> a_word (un_symbol u) -> a_word (un_symbol u') ->
  show_undef k u = show_undef k' u' -> k = k' /\ u = u'.
Proof.
  destruct u as [s a], u' as [s' a']. unfold show_undef. cbn [un_symbol un_pos]. intros Hk Hk' Hs Hs' E.
  apply line_app in E as [-> E]. apply word_app in E as [-> E]; auto; [|cbn; auto|cbn; auto].
  cbn [append] in E. injection E as E. apply word_app in E as [-> _]; auto; cbn; auto.
Qed.
Lemma some_inj {A} (a b : A) : Some a = Some b -> a = b.
Proof. congruence. Qed.
Lemma type_inj t t' m : a_word (ty_var t) -> a_word (ty_var t') ->
  (forall x, ty_expected t = Some x -> a_word x) -> (forall x, ty_expected t' = Some x -> a_word x) ->
  (forall x, ty_found t = Some x -> a_word x) -> (forall x, ty_found t' = Some x -> a_word x) ->
  show_type_err t = Some m -> show_type_err t' = Some m -> t = t'.
Proof.
  destruct t as [e f v l], t' as [e' f' v' l']. cbn [ty_var ty_expected ty_found]. unfold show_type_err.
  cbn [ty_var ty_expected ty_found ty_pos]. intros Hv Hv' He He' Hf Hf' E E'.
  assert (forall x x', (("line " ++ show_N l ++ ": Type error for variable " ++ v ++ ". ") ++ x)%string
            = (("line " ++ show_N l' ++ ": Type error for variable " ++ v' ++ ". ") ++ x')%string ->
            l = l' /\ v = v' /\ x = x') as Hh.
  { intros x x' Ex. rewrite !app_assoc_s in Ex. cbn [append] in Ex. injection Ex as Ex.
    apply show_N_app in Ex as [-> Ex]; [|reflexivity|reflexivity]. injection Ex as Ex.
    apply word_app in Ex as [-> Ex]; auto; [|cbn; auto|cbn; auto]. injection Ex as Ex. auto. }
  destruct e as [e|], f as [f|]; try discriminate; destruct e' as [e'|], f' as [f'|]; try discriminate;
    rewrite <- E in E'; apply some_inj in E'; symmetry in E'; apply Hh in E' as (-> & -> & E'); cbn [append] in E'; try discriminate;
    injection E' as E'.
  - apply word_app in E' as [-> E']; auto; [|cbn; auto|cbn; auto]. injection E' as E'.
    apply word_app in E' as [-> _]; auto; cbn; auto.
  - apply word_app in E' as [-> E']; auto; [|cbn; auto|cbn; auto]. discriminate.
  - apply word_app in E' as [-> E']; auto; [|cbn; auto|cbn; auto]. discriminate.
  - apply word_app in E' as [-> E']; auto; cbn; auto.
  - apply word_app in E' as [-> E']; auto; cbn; auto.
Qed.
Lemma parity_inj s s' x x' y y' r r' : a_word s -> a_word s' -> quiet r -> quiet r' ->
  (s ++ " takes " ++ show_nat x ++ " parameters, but " ++ show_nat y ++ r)%string
  = (s' ++ " takes " ++ show_nat x' ++ " parameters, but " ++ show_nat y' ++ r')%string -> s = s' /\ x = x' /\ y = y'.
Proof.
  intros Hs Hs' Hr Hr' E. apply word_app in E as [-> E]; auto; [|cbn; auto|cbn; auto]. cbn [append] in E. injection E as E.
  apply show_nat_app in E as [-> E]; [|reflexivity|reflexivity]. injection E as E.
  apply show_nat_app in E as [-> _]; auto.
Qed.
Lemma type_tail t m : show_type_err t = Some m ->
  exists r, m = ("line " ++ show_N (ty_pos t) ++ ": " ++ "Type error" ++ r)%string.
Proof.
  unfold show_type_err. intros E.
  destruct (ty_expected t), (ty_found t); try discriminate; injection E as <-; rewrite !app_assoc_s; cbn [append]; eauto.
Qed.
Lemma requirement_inj r r' : show_requirement r = show_requirement r' -> r = r'.
Proof. destruct r, r'; intros E; try reflexivity; vm_compute in E; discriminate. Qed.
Ltac words := repeat match goal with Hx : Forall _ (_ :: _) |- _ => inversion Hx; clear Hx; subst end.
(** A message is an optional line, a word, a blank and more. *)
Definition head (e : sem_err) : option (option N * string * string) :=
  match e with
  | DuplicateObject d => Some (None, "object", show_dup d)
  | DuplicateRequirement r => Some (None, "requirement", show_requirement r)
  | DuplicatePredicate d => Some (None, "predicate", show_dup d)
  | DuplicateAction d => Some (None, "action", show_dup d)
  | DuplicateCompoundTask d => Some (None, "compound", "task " ++ show_dup d)
  | DuplicateMethod d => Some (None, "method", show_dup d)
  | DuplicateParameter d => Some (None, "parameter", show_dup d)
  | UndefinedPredicate u => Some (Some (un_pos u), "predicate", un_symbol u ++ " is not defined.")
  | UndefinedType u => Some (Some (un_pos u), "type", un_symbol u ++ " is not defined.")
  | UndefinedSubtask u => Some (Some (un_pos u), "subtask", un_symbol u ++ " is not defined.")
  | UndefinedTask u => Some (Some (un_pos u), "task", un_symbol u ++ " is not defined.")
  | UndefinedParameter u => Some (Some (un_pos u), "parameter", un_symbol u ++ " is not defined.")
  | UndefinedObject u => Some (Some (un_pos u), "object", un_symbol u ++ " is not defined.")
  | InconsistentPredicateArity a => Some (Some (ar_pos a), "predicate", ar_symbol a ++ " takes "
          ++ show_nat (ar_expected a) ++ " parameters, but " ++ show_nat (ar_found a) ++ " are given.")
  | InconsistentTaskArity a => Some (None, "Task", ar_symbol a ++ " takes "
          ++ show_nat (ar_expected a) ++ " parameters, but " ++ show_nat (ar_found a) ++ " are given.")
  | CyclicType => Some (None, "Type", "hierarchy is cyclic.")
  | CyclicOrdering p => Some (Some p, "task", "ordering is cyclic.")
  | InconsistentPredicateArgType _ | InconsistentTaskArgType _ => None
  end%string.
Definition headed (l : option N) (k x : string) : string :=
  match l with Some l => "line " ++ show_N l ++ ": " ++ k ++ " " ++ x | None => k ++ " " ++ x end%string.
Lemma head_ok e l k x : head e = Some (l, k, x) -> show_sem_err e = Some (headed l k x) /\ a_word k /\ k <> "line"%string.
Proof.
  assert (forall (k : string), forallb (fun c => latin1_alnum c) (list_ascii_of_string k) = true -> a_word k) as Hk.
  { clear. induction k as [|c k IH]; intros E; [exact I|]. cbn [list_ascii_of_string forallb] in E. apply andb_true_iff in E as [E1 E2]. split; [left; auto|apply IH; auto]. }
  destruct e; cbn [head]; intros E; injection E as <- <- <- || discriminate E;
    (split; [reflexivity|split; [apply Hk; vm_compute; reflexivity|discriminate]]).
Qed.
Lemma head_inj l k x l' k' x' : a_word k -> a_word k' -> k <> "line"%string -> k' <> "line"%string ->
  headed l k x = headed l' k' x' -> l = l' /\ k = k' /\ x = x'.
Proof.
  assert (a_word "line") as Hl by (repeat split; left; reflexivity).
  intros Hk Hk' Hn Hn' E. destruct l as [l|], l' as [l'|]; cbn [headed] in E.
  - apply line_app in E as [-> E]. apply word_app in E as [-> E]; auto; [|cbn; auto|cbn; auto]. injection E as ->. auto.
  - exfalso. change ("line " ++ show_N l ++ ": " ++ k ++ " " ++ x)%string with ("line" ++ (" " ++ show_N l ++ ": " ++ k ++ " " ++ x))%string in E.
    apply word_app in E as [E _]; auto; cbn; auto.
  - exfalso. change ("line " ++ show_N l' ++ ": " ++ k' ++ " " ++ x')%string with ("line" ++ (" " ++ show_N l' ++ ": " ++ k' ++ " " ++ x'))%string in E.
    apply word_app in E as [E _]; auto; cbn; auto.
  - apply word_app in E as [-> E]; auto; [|cbn; auto|cbn; auto]. injection E as ->. auto.
Qed.

Lemma head_eq (l l' : option N) (k k' x x' : string) : Some (l, k, x) = Some (l', k', x') -> l = l' /\ k = k' /\ x = x'.
Proof. intros E. injection E; auto. Qed.
Lemma sem_message_inj e e' m : Forall a_word (sem_words e) -> Forall a_word (sem_words e') ->
  show_sem_err e = Some m -> show_sem_err e' = Some m -> reads_same e e'.
Proof.
  assert (forall t t', Forall a_word (type_words t) -> Forall a_word (type_words t') ->
          show_type_err t = Some m -> show_type_err t' = Some m -> t = t') as Ht.
  { intros t t' H1 H2. unfold type_words in *. rewrite Forall_forall in H1, H2. apply type_inj.
    - apply H1. simpl; auto.
    - apply H2. simpl; auto.
    - intros x Ex. apply H1. rewrite Ex. simpl; auto.
    - intros x Ex. apply H2. rewrite Ex. simpl; auto.
    - intros x Ex. apply H1. rewrite Ex. right. apply in_or_app. right. simpl; auto.
    - intros x Ex. apply H2. rewrite Ex. right. apply in_or_app. right. simpl; auto. }
  intros Hw Hw' E E'.
  assert (forall x, show_sem_err x = Some m -> (exists t, (x = InconsistentPredicateArgType t \/ x = InconsistentTaskArgType t)
      /\ show_type_err t = Some m) \/ (forall t, x <> InconsistentPredicateArgType t /\ x <> InconsistentTaskArgType t)) as Hv.
  { intros []; cbn [show_sem_err]; intros Ex; try (right; intros t; split; discriminate); left; eauto. }
  destruct (Hv e E) as [(t & He & Et)|Hne], (Hv e' E') as [(t' & He' & Et')|Hne'].
  - assert (t = t') as ->.
    { apply Ht; auto; [destruct He as [->| ->]; exact Hw|destruct He' as [->| ->]; exact Hw']. }
    destruct He as [->| ->], He' as [->| ->]; constructor.
  - exfalso. apply type_tail in Et as (r & ->). destruct e'; cbn [show_sem_err] in E'; try apply some_inj in E';
      try discriminate E'; try (unfold show_undef in E'); try (apply line_app in E' as [_ E']; discriminate E').
    + destruct (Hne' e0); congruence.
    + destruct (Hne' e0); congruence.
  - exfalso. apply type_tail in Et' as (r & ->). destruct e; cbn [show_sem_err] in E; try apply some_inj in E;
      try discriminate E; try (unfold show_undef in E); try (apply line_app in E as [_ E]; discriminate E).
    + destruct (Hne e); congruence.
    + destruct (Hne e); congruence.
  - destruct (head e) as [[[l k] x]|] eqn:Eh; [|exfalso; destruct e; try discriminate Eh; destruct (Hne e); congruence].
    destruct (head e') as [[[l' k'] x']|] eqn:Eh'; [|exfalso; destruct e'; try discriminate Eh'; destruct (Hne' e0) || destruct (Hne' e'); congruence].
    destruct (head_ok _ _ _ _ Eh) as (Ek & Kk & Kn), (head_ok _ _ _ _ Eh') as (Ek' & Kk' & Kn').
    assert (l = l' /\ k = k' /\ x = x') as (<- & <- & <-) by (eapply head_inj; eauto; congruence).
    clear Ek Ek' Kk Kk' Kn Kn' E E' Ht Hv Hne Hne'.
    destruct e; try discriminate Eh; destruct e'; try discriminate Eh'; rewrite <- Eh' in Eh; clear Eh'; cbn [head sem_words] in *;
      apply head_eq in Eh as (El & Ek & Ex); try discriminate El; try discriminate Ek; try discriminate Ex; words; try (constructor; fail);
      try (apply dup_inj in Ex; auto; subst; constructor);
      try (apply requirement_inj in Ex; subst; constructor);
      try (apply (append_inj_l "task ") in Ex; apply dup_inj in Ex; auto; subst; constructor);
      try (injection El as ->; constructor).
    all: try (injection El as El;
         destruct e as [s1 p1], e0 as [s2 p2]; cbn [un_symbol un_pos] in *;
         apply word_app in Ex as [-> _]; auto; [subst; constructor|cbn; auto|cbn; auto]).
    all: try (destruct e as [s1 x1 y1 p1], e0 as [s2 x2 y2 p2]; cbn [ar_symbol ar_expected ar_found ar_pos] in *;
         apply parity_inj in Ex as (-> & -> & ->); auto; try reflexivity).
    + exfalso. apply word_app in Ex as [_ Ex]; auto; [discriminate Ex|cbn; auto|cbn; auto].
    + exfalso. change "ordering is cyclic."%string with ("ordering" ++ " is cyclic.")%string in Ex.
      apply word_app in Ex as [_ Ex]; auto; [discriminate Ex|repeat split; left; reflexivity|cbn; auto|cbn; auto].
    + exfalso. apply word_app in Ex as [_ Ex]; auto; [discriminate Ex|cbn; auto|cbn; auto].
    + injection El as ->. constructor.
    + constructor.
    + exfalso. change "ordering is cyclic."%string with ("ordering" ++ " is cyclic.")%string in Ex.
      apply word_app in Ex as [_ Ex]; auto; [discriminate Ex|repeat split; left; reflexivity|cbn; auto|cbn; auto].
Qed.

(** ** Lines *)
Definition plain (s : string) : Prop := ~ str_in "010" s.
Lemma plain_app a b : plain a -> plain b -> plain (a ++ b).
Proof. unfold plain. intros Ha Hb. induction a as [|c a IH]; simpl in *; tauto. Qed.
Lemma plain_word a : a_word a -> plain a.
Proof.
  unfold plain. induction a as [|c a IH]; simpl; [tauto|]. intros [Hc Ha] [E|Hi]; [|apply IH; auto].
  subst c. destruct Hc as [E|[E|E]]; vm_compute in E; discriminate.
Qed.
Lemma has_line_cons L r s : plain L -> has_line (L ++ String "010" r) s <-> s = L \/ has_line r s.
Proof.
  intros HL. split.
  - intros (Hs & a & b & E & Ha). destruct a as [|c a].
    + left. cbn [append] in E. assert (forall x, plain x -> str_all (fun c => c <> "010"%char) x) as Hp.
      { clear. induction x as [|c x IH]; simpl; auto. unfold plain; simpl. intros Hx. split; [intros ->; tauto|apply IH; unfold plain; tauto]. }
      apply (span_inj (fun c => c <> "010"%char)) in E as [E _]; simpl; auto.
    + right. split; auto. clear Hs.
      revert c a E Ha. induction L as [|d L IH]; intros c0 a E Ha; simpl in E.
      * injection E as <- E. exists a, b. split; auto. destruct a; [exact I|exact Ha].
      * injection E as <- E. destruct a as [|e a]; [simpl in Ha; subst d; exfalso; apply HL; left; auto|].
        apply (IH ltac:(intros Hx; apply HL; right; auto) e a E). exact Ha.
  - intros [->|(Hs & a & b & -> & Ha)].
    + split; auto. exists ""%string, r. split; [reflexivity|exact I].
    + split; auto. exists (L ++ String "010" a)%string, b. split; [rewrite app_assoc_s; reflexivity|].
      destruct a; [|apply str_last_app; [discriminate|exact Ha]]. apply str_last_app; [discriminate|reflexivity].
Qed.
Lemma has_line_nil s : ~ has_line "" s.
Proof. intros (_ & a & b & E & _). destruct a; [destruct s|]; discriminate. Qed.
Fixpoint unlines (l : list string) : string := match l with [] => ""%string | x :: l' => (x ++ String "010" (unlines l'))%string end.
Lemma has_line_unlines l s : Forall plain l -> has_line (unlines l) s <-> In s l.
Proof.
  induction 1 as [|x l Hx _ IH]; simpl.
  - split; [apply has_line_nil|tauto].
  - rewrite has_line_cons by auto. rewrite IH. intuition.
Qed.
Lemma unlines_app l l' : unlines (l ++ l') = (unlines l ++ unlines l')%string.
Proof. induction l as [|x l IH]; simpl; auto. rewrite IH, app_assoc_s. reflexivity. Qed.

Definition recursion_lines (r : recursion) : list string :=
  (tb ++ "Hierarchy type: " ++ class_phrase r)%string
  :: match r with NonRecursive => [] | _ => [(tb ++ "Cycle: " ++ show_cycle (cycle_of r))%string] end.
Definition nullable_lines (l : list string) : list string :=
  match l with
  | [] => [(tb ++ "Nullable Tasks: None")%string]
  | _ => (tb ++ "Nullable Tasks:")%string :: map (fun n => (tb ++ tb ++ n)%string) l
  end.
Definition metadata_lines (m : metadata) : list string :=
  "Description"%string :: recursion_lines (md_recursion m) ++ nullable_lines (md_nullables m) ++
  [(tb ++ "Number of actions: " ++ show_nat (md_actions m))%string;
   (tb ++ "Number of abstract tasks: " ++ show_nat (md_tasks m))%string;
   (tb ++ "Number of methods: " ++ show_nat (md_methods m))%string].
Lemma concat_lines l : String.concat "" (map (fun n => (tb ++ tb ++ n ++ nl)%string) l) = unlines (map (fun n => (tb ++ tb ++ n)%string) l).
Proof.
  assert (forall s l, String.concat "" (s :: l) = (s ++ String.concat "" l)%string) as Hc.
  { intros s [|x k]; simpl; auto. rewrite app_nil_r_s. reflexivity. }
  induction l as [|x l IH]; [reflexivity|]. cbn [map unlines]. rewrite Hc, IH. unfold nl. rewrite !app_assoc_s. reflexivity.
Qed.
Lemma metadata_unlines m : show_metadata m = unlines (metadata_lines m).
Proof.
  unfold show_metadata, metadata_lines. cbn [unlines]. rewrite !unlines_app.
  assert ((tb ++ "Hierarchy type: " ++ show_recursion (md_recursion m) ++ nl)%string = unlines (recursion_lines (md_recursion m))) as E1.
  { destruct (md_recursion m); cbn [show_recursion recursion_lines unlines class_phrase cycle_of]; unfold nl; rewrite ?app_assoc_s; reflexivity. }
  assert ((match md_nullables m with [] => (tb ++ "Nullable Tasks: None" ++ nl)%string
     | l => (tb ++ "Nullable Tasks:" ++ nl ++ String.concat "" (map (fun n => tb ++ tb ++ n ++ nl) l))%string end)
     = unlines (nullable_lines (md_nullables m))) as E2.
  { destruct (md_nullables m) as [|x l]; [reflexivity|]. rewrite concat_lines. cbn [nullable_lines unlines]. unfold nl. rewrite ?app_assoc_s. reflexivity. }
  rewrite <- E1, <- E2. cbn [unlines]. unfold nl. rewrite ?app_assoc_s. cbn [append]. rewrite ?app_assoc_s. cbn [append]. reflexivity.
Qed.
Lemma show_cycle_plain c : Forall plain (map fst c ++ map snd c) -> plain (show_cycle c).
Proof.
  intros Hc. rewrite Forall_forall in Hc. assert (forall t m, In (t, m) c -> plain t /\ plain m) as Hp.
  { intros t m Hi. split; apply Hc, in_or_app; [left|right]; apply in_map_iff; exists (t, m); auto. }
  clear Hc. induction c as [|[t m] c IH]; [intros []|]. assert (plain t /\ plain m) as [Ht Hm] by (apply Hp; left; auto).
  assert (forall x, In x ["[";"]";"]-(";")->"]%string -> plain x) as Hk.
  { intros x Hx. simpl in Hx. repeat destruct Hx as [<-|Hx]; try destruct Hx; intros Hi; simpl in Hi; intuition discriminate. }
  cbn [show_cycle]. destruct c as [|x c].
  - repeat apply plain_app; auto; apply Hk; simpl; auto.
  - repeat apply plain_app; auto; try (apply Hk; simpl; auto; fail). apply IH. intros; apply Hp; right; auto.
Qed.
Lemma digits_plain n : plain (show_nat n).
Proof.
  unfold show_nat. destruct (show_N_spec (N.of_nat n)) as (Hd & _). revert Hd. generalize (show_N (N.of_nat n)).
  induction s as [|c s IH]; simpl; [intros _ []|]. intros [Hc Hs] [E|Hi]; [subst; vm_compute in Hc; discriminate|]. apply IH; auto.
Qed.
Lemma tb_plain s : plain s -> plain (tb ++ s).
Proof. intros Hs [E|Hi]; [discriminate|auto]. Qed.
Lemma metadata_plain m : Forall plain (metadata_words m) -> Forall plain (metadata_lines m).
Proof.
  unfold metadata_words. intros Hw. apply Forall_app in Hw as [Hn Hc].
  assert (forall s, forallb (fun c => negb (Ascii.eqb c "010")) (list_ascii_of_string s) = true -> plain s) as Hk.
  { clear. induction s as [|c s IH]; [intros _ []|]. cbn [list_ascii_of_string forallb]. intros E. apply andb_true_iff in E as [E1 E2].
    intros [Hi|Hi]; [subst; discriminate|apply IH; auto]. }
  unfold metadata_lines. constructor; [apply Hk; reflexivity|]. apply Forall_app. split; [|apply Forall_app; split].
  - unfold recursion_lines. constructor.
    + apply tb_plain, plain_app; [apply Hk; reflexivity|]. destruct (md_recursion m); apply Hk; reflexivity.
    + destruct (md_recursion m); repeat constructor; apply tb_plain, plain_app; auto using show_cycle_plain; apply Hk; reflexivity.
  - unfold nullable_lines. destruct (md_nullables m) as [|x l]; [repeat constructor; apply Hk; reflexivity|].
    constructor; [apply Hk; reflexivity|]. apply Forall_map. eapply Forall_impl; [|exact Hn]. intros. apply tb_plain, tb_plain; auto.
  - repeat constructor; apply tb_plain, plain_app; auto using digits_plain; apply Hk; reflexivity.
Qed.
Lemma draws_show c : c <> [] -> draws (show_cycle c) c.
Proof.
  induction c as [|[t m] c IH]; [congruence|]. intros _. destruct c as [|x c]; [constructor|].
  change (show_cycle ((t, m) :: x :: c)) with ("[" ++ t ++ "]-(" ++ m ++ ")->" ++ show_cycle (x :: c))%string.
  constructor. apply IH. discriminate.
Qed.
Lemma draws_inj s c : draws s c -> forall c', draws s c' -> Forall a_word (map fst c ++ map snd c) -> Forall a_word (map fst c' ++ map snd c') ->
  same_drawing c c'.
Proof.
  assert (forall t m c, Forall a_word (map fst ((t, m) :: c) ++ map snd ((t, m) :: c)) ->
          a_word t /\ a_word m /\ Forall a_word (map fst c ++ map snd c)) as Hi.
  { clear. intros t m c Hx. apply Forall_app in Hx as [H1 H2]. inversion H1; inversion H2; subst. repeat split; auto. apply Forall_app; auto. }
  intros Hd. remember s as s0 eqn:Es. induction Hd as [t m|t m s1 c Hd IH] in s, Es |- *; intros c' Hd' Hw Hw'.
  - remember ("[" ++ t ++ "]")%string as s2 eqn:E2. destruct Hd' as [t' m'|t' m' s' c' Hd'];
      destruct (Hi _ _ _ Hw) as (W1 & W2 & W3), (Hi _ _ _ Hw') as (W1' & W2' & W3'); cbn [append] in E2; injection E2 as E2;
      apply word_app in E2 as [-> E2]; auto; try (cbn; auto 6; fail); [constructor|discriminate].
  - remember ("[" ++ t ++ "]-(" ++ m ++ ")->" ++ s1)%string as s2 eqn:E2. destruct Hd' as [t' m'|t' m' s' c' Hd'];
      destruct (Hi _ _ _ Hw) as (W1 & W2 & W3), (Hi _ _ _ Hw') as (W1' & W2' & W3'); cbn [append] in E2; injection E2 as E2;
      apply word_app in E2 as [-> E2]; auto; try (cbn; auto 6; fail); [discriminate|].
    injection E2 as E2. apply word_app in E2 as [-> E2]; auto; try (cbn; auto 6; fail). injection E2 as ->.
    constructor. eapply IH; eauto.
Qed.
