(** Property theorems about how error messages show tokens and requirements
    (C64).  Specification: the spellings of SpecLex.v and [fits] below. *)
From Coq Require Import String Ascii NArith ZArith Bool List Lia PeanoNat.
From Verif Require Import Base Token Lexer Errors Ast Parser Semantic Api StrFacts SpecLex LexProofs LexProofs2 LexProofs3 ParserProofs
  SpecBlame PrintText PropsLex PropsParse PropsBlame PropsExpect
  Double SpecJson SpecReal PropsReal DisplayProofs.
Import ListNotations.
Open Scope string_scope.

(** [fits p x]: [x] is a reading of the text [p], in which a part in
    parentheses may be there or not. *)
Inductive fits : string -> string -> Prop :=
| fits_plain x : (forall a b c, x <> a ++ "(" ++ b ++ ")" ++ c) -> fits x x
| fits_with a b c : fits (a ++ "(" ++ b ++ ")" ++ c) (a ++ b ++ c)
| fits_without a b c : fits (a ++ "(" ++ b ++ ")" ++ c) (a ++ c).

(** The word with which a message introduces a token of this kind. *)
Definition kind_word (t : token) : string :=
  match t with
  | TKeyword _ => "Keyword "
  | TIdent _ => "Identifier "
  | TNumber _ => "Number "
  | TReq _ => "Requirement "
  | TOp _ | TPunct _ | TEOF => ""
  end.

Section S.
Context `{Unicode}.

(** [x] denotes [t]: it is a way to write it, for a variable without its '?'. *)
Definition names (t : token) (x : string) : Prop := Written t x \/ Written t (String "?" x).

Lemma str_in_mid c a b : str_in c (a ++ String c b).
Proof. induction a; cbn; auto. Qed.
Lemma str_in_right c a b : str_in c b -> str_in c (a ++ b).
Proof. induction a; cbn; auto. Qed.
Lemma paren_in a b c : str_in "(" (a ++ "(" ++ b ++ ")" ++ c) /\ str_in ")" (a ++ "(" ++ b ++ ")" ++ c).
Proof. split; [apply str_in_mid|]. apply str_in_right. cbn. right. apply str_in_mid. Qed.
Lemma fits_self p : ~ str_in "(" p \/ ~ str_in ")" p -> fits p p.
Proof. intros Hn. constructor. intros a b c ->. pose proof (paren_in a b c). tauto. Qed.
Lemma fits_only p x : ~ str_in "(" p \/ ~ str_in ")" p -> fits p x -> x = p.
Proof. intros Hn Hf. destruct Hf as [x _|a b c|a b c]; auto; pose proof (paren_in a b c); tauto. Qed.
Lemma all_not_in (P : ascii -> Prop) c s : str_all P s -> ~ P c -> ~ str_in c s.
Proof. induction s as [|d s IH]; cbn; [tauto|]. intros [Hd Hs] Hc [->|Hi]; [tauto|]. exact (IH Hs Hc Hi). Qed.

(** A real number written [l] and shown as [p]: [p], or [p] and a dot, is a way to
    write a real number of the same value (the same double, SpecReal.v), or the
    value is infinite. *)
Definition shown_real (l p : string) : Prop :=
  (exists y, (y = p \/ y = p ++ ".") /\ Written (TNumber (Real y)) y /\ forall u, stands_for y u <-> stands_for l u)
    /\ (exists u, stands_for l u /\ finite u)
  \/ p = "inf" /\ (exists u, stands_for l u /\ ~ finite u).
Lemma literal_written d e : all_digits d -> d <> "" -> all_digits e -> written (d ++ String "." e).
Proof. intros Hd Hn He. exists d, e. split; [split; auto|]. auto. Qed.
Lemma real_shown l : written l -> shown_real l (show_number (Real l)).
Proof.
  intros Hl. pose proof (proj1 (C81_nearest l Hl)) as Hs. cbn [show_number].
  destruct (N.lt_ge_cases (double l) (2 ^ 1024 * units)) as [Hf|Hf].
  - left. split; [|exists (double l); auto]. destruct (display_reads l Hl Hf) as (y & Hy & (i & f & [Hi Hn] & Hf' & E) & Hu).
    exists y. split; auto. split; [|exact Hu]. subst y. change (i ++ "." ++ f) with (i ++ String "." f). apply wr_real; auto.
  - assert (~ finite (double l)) as Hi by (unfold finite; apply N.le_ngt; exact Hf).
    right. split; [apply display_infinite; exact Hi|]. exists (double l). auto.
Qed.

(** One token and its text. *)
Definition shown_right (t : token) : Prop :=
  exists p, show_token t = kind_word t ++ p /\ (exists x, fits p x) /\ forall x, fits p x -> names t x.
Lemma plain_right t p : ~ str_in "(" p \/ ~ str_in ")" p -> show_token t = kind_word t ++ p -> names t p -> shown_right t.
Proof.
  intros Hn E Hw. exists p. split; auto. split; [exists p; apply fits_self; auto|]. intros x Hf. rewrite (fits_only p x Hn Hf). auto.
Qed.
Ltac notin := first [right; cbn; intuition discriminate | left; cbn; intuition discriminate].
Ltac ways := first [ left; constructor; fail
  | left; apply wr_bare; cbn; tauto
  | left; match goal with |- Written _ (String ":" ?w) => apply (wr_colon _ w); cbn; tauto end ].
Ltac plain p := apply (plain_right _ p); [notin|reflexivity|ways].

Lemma subtasks_split pre post a b c :
  ~ str_in "(" pre -> ~ str_in ")" post ->
  pre ++ "(sub)" ++ post = a ++ "(" ++ b ++ ")" ++ c -> a = pre /\ b = "sub" /\ c = post.
Proof.
  intros Hp Hq. revert a. induction pre as [|d pre IH]; intros a E.
  - destruct a as [|e a].
    + cbn in E. injection E as E. split; auto.
      destruct b as [|b1 [|b2 [|b3 [|b4 b]]]]; cbn in E; try discriminate; injection E; intros; subst; auto.
      * exfalso. apply Hq. apply str_in_mid.
    + cbn in E. injection E as <- E. exfalso.
      destruct a as [|a1 [|a2 [|a3 [|a4 a]]]]; cbn in E; try discriminate; injection E; intros; subst.
      apply Hq. apply str_in_right. cbn. right. apply str_in_mid.
  - destruct a as [|e a].
    + cbn in E. injection E as -> _. exfalso. apply Hp. cbn. auto.
    + cbn [String.append] in E. injection E as <- E. destruct (IH (fun Hi => Hp (or_intror Hi)) a E) as (-> & -> & ->). auto.
Qed.
Lemma subtasks_fits pre post x : ~ str_in "(" pre -> ~ str_in ")" post ->
  fits (pre ++ "(sub)" ++ post) x -> x = pre ++ "sub" ++ post \/ x = pre ++ post.
Proof.
  intros Hp Hq Hf. remember (pre ++ "(sub)" ++ post) as p eqn:E. destruct Hf as [x Hn|a b c|a b c].
  - exfalso. apply (Hn pre "sub" post). exact E.
  - symmetry in E. apply subtasks_split in E as (-> & -> & ->); auto.
  - symmetry in E. apply subtasks_split in E as (-> & -> & ->); auto.
Qed.

Lemma token_eq_eof t : t = TEOF \/ t <> TEOF.
Proof. destruct t; auto; right; discriminate. Qed.
Lemma shown_printable t : printable t -> t <> TKeyword KDefine -> t <> TOp OImplication -> (forall l, t <> TNumber (Real l)) -> shown_right t.
Proof.
  intros Hp Hd Hi Hr. destruct t as [k|w|v|o|q|r|].
  - destruct k; try congruence;
      try (match goal with |- shown_right (TKeyword ?k) => let p := eval cbv in (show_keyword k) in plain p end).
    + exists ":(sub)tasks". split; [reflexivity|]. split.
      * exists ":subtasks". exact (fits_with ":" "sub" "tasks").
      * intros x Hx. apply (subtasks_fits ":" "tasks") in Hx as [-> | ->]; try (cbn; intuition discriminate).
        -- left. apply (wr_colon _ "subtasks"). cbn. auto.
        -- left. apply (wr_colon _ "tasks"). cbn. auto.
    + exists ":ordered-(sub)tasks". split; [reflexivity|]. split.
      * exists ":ordered-subtasks". exact (fits_with ":ordered-" "sub" "tasks").
      * intros x Hx. apply (subtasks_fits ":ordered-" "tasks") in Hx as [-> | ->]; try (cbn; intuition discriminate).
        -- left. apply (wr_colon _ "ordered-subtasks"). cbn. auto.
        -- left. apply (wr_colon _ "ordered-tasks"). cbn. auto.
  - destruct Hp as [Hw Hu]. apply (plain_right _ w); [|reflexivity|right; constructor; auto].
    left. apply (all_not_in _ _ _ Hw). unfold word_byte. intuition discriminate.
  - destruct v as [l|z].
    + exfalso. exact (Hr l eq_refl).
    + cbn in Hp. apply (plain_right _ (show_Z z)); [|reflexivity|].
      * left. assert (str_all (fun c => is_digit c = true) (show_Z z)) as Ha by (destruct z; [apply show_N_spec|apply show_N_spec|lia]).
        apply (all_not_in _ _ _ Ha). discriminate.
      * left. destruct (show_N_spec (Z.to_N z)) as (Ha & Hn & Hv).
        assert (show_Z z = show_N (Z.to_N z)) as -> by (destruct z; try reflexivity; lia).
        rewrite Z2N.id in Hv by lia. rewrite <- Hv at 1. apply wr_integer; auto. lia.
  - destruct o; try congruence; match goal with |- shown_right (TOp ?k) => let p := eval cbv in (show_op k) in plain p end.
  - destruct q; match goal with |- shown_right (TPunct ?k) => let p := eval cbv in (show_punct k) in plain p end.
  - destruct r; try (cbn in Hp; congruence);
      match goal with |- shown_right (TReq ?k) => let p := eval cbv in (show_requirement k) in plain p end.
  - destruct Hp.
Qed.

(** Every token of a document but `define`, `imply` and real numbers is shown by
    its kind and a text all of whose readings are ways to write that very token. *)
Theorem C64_token_text : forall t x, Written t x -> t <> TKeyword KDefine -> t <> TOp OImplication -> (forall l, t <> TNumber (Real l)) ->
  exists p, show_token t = kind_word t ++ p /\ (exists y, fits p y) /\ forall y, fits p y -> names t y.
Proof. intros t x Hw Hd Hi Hr. apply shown_printable; auto. eapply written_printable; eauto. Qed.
(** A real number is shown by another way to write the same value, which may lack
    its dot. *)
Theorem C64_real_text : forall l x, Written (TNumber (Real l)) x ->
  exists p, show_token (TNumber (Real l)) = "Number " ++ p /\ shown_real l p.
Proof.
  intros l x Hw. exists (show_number (Real l)). split; [reflexivity|]. apply real_shown.
  apply written_printable in Hw. destruct Hw as (d & e & -> & Hd & Hn & He). apply literal_written; auto.
Qed.

(** It is shown with as few decimals as a literal of the same value can have, and
    without a dot if none are needed; the digits before the dot are those of a
    natural number without leading zeros (SpecJson.v). *)
Theorem C64_real_decimals : forall l x u, Written (TNumber (Real l)) x -> stands_for l u -> finite u ->
  exists p, show_token (TNumber (Real l)) = "Number " ++ p
  /\ (natural p \/ exists i f, p = i ++ String "." f /\ natural i /\ all_digits f /\ f <> ""
       /\ forall i' f', all_digits i' -> i' <> "" -> all_digits f' ->
            (forall u, stands_for (i' ++ String "." f') u <-> stands_for l u) -> (String.length f <= String.length f')%nat).
Proof.
  intros l x u Hw Hs Hu. exists (show_number (Real l)). split; [reflexivity|].
  apply written_printable in Hw. destruct Hw as (d & e & El & Hd & Hn & He).
  assert (written l) as Hl by (rewrite El; apply literal_written; auto).
  rewrite (proj2 (C81_nearest l Hl) u Hs) in Hu.
  destruct (display_decimals l Hl Hu) as [Ha|(i & f & E & Hi & [Hf Hf0] & Hmin)]; [left; exact Ha|].
  right. exists i, f. split; [exact E|]. do 3 (split; auto). intros i' f' Hi' Hn' Hf' Hsame. apply (Hmin i' f'); auto. split; auto.
Qed.

(** The whole message of a syntax error: the line, and after "found" the token
    that stands on that line of the document, or the end of the file. *)
Theorem C64_found_text : forall n program e, parse n program = Err (ESyn e) ->
  exists ts t, stands_at program ts (LTok t) (se_line e)
  /\ show_parsing_error (ESyn e) = Some ("line " ++ show_N (se_line e) ++ ": expected '" ++ se_expected e
       ++ "', but found '" ++ show_token (se_found e) ++ "'" ++ String newline "")
  /\ (se_found e = t \/ se_found e = peeked t)
  /\ (t = TEOF /\ show_token (se_found e) = "End of file"
      \/ t = TKeyword KDefine /\ show_token (se_found e) = "Keyword :define"
      \/ t = TOp OImplication /\ show_token (se_found e) = "when"
      \/ (exists l p, t = TNumber (Real l) /\ show_token (se_found e) = "Number " ++ p /\ shown_real l p)
      \/ exists p, show_token (se_found e) = kind_word t ++ p /\ (exists y, fits p y)
           /\ forall y, fits p y -> names (se_found e) y).
Proof.
  intros n program e E. destruct (C45_syntax_error n program e E) as (ts & t & Hs & Hf & _).
  exists ts, t. split; auto. split; [reflexivity|]. split; auto.
  destruct Hs as (st & _ & Hg & _). destruct (get_token st) as [o st'] eqn:G. cbn [fst] in Hg. subst o.
  destruct (token_eq_eof t) as [->|Hn].
  { left. split; auto. destruct Hf as [-> | ->]; reflexivity. }
  pose proof (read_printable _ _ _ G Hn) as Hp.
  assert (t = TKeyword KDefine \/ t = TOp OImplication \/ (t <> TKeyword KDefine /\ t <> TOp OImplication)) as [->|[->|[Hd Hi]]].
  { destruct t as [[]| | |[]| | |]; auto; right; right; split; discriminate. }
  { right. left. split; auto. destruct Hf as [-> | ->]; reflexivity. }
  { right. right. left. split; auto. destruct Hf as [-> | ->]; reflexivity. }
  right. right. right.
  assert ((exists l, t = TNumber (Real l)) \/ forall l, t <> TNumber (Real l)) as [(l & ->)|Hr].
  { destruct t as [| |[l|z]| | | |]; eauto; right; discriminate. }
  { left. exists l, (show_number (Real l)). split; auto. split; [destruct Hf as [-> | ->]; reflexivity|]. apply real_shown.
    destruct Hp as (d & x & -> & Hd1 & Hn1 & He). apply literal_written; auto. }
  right.
  assert (kind_word t = kind_word (se_found e) /\ printable (se_found e) /\ se_found e <> TKeyword KDefine
          /\ se_found e <> TOp OImplication /\ forall l, se_found e <> TNumber (Real l)) as (-> & Hp' & Hd' & Hi' & Hr').
  { destruct Hf as [-> | ->]; [auto|]. destruct t as [| | |[]| | |]; cbn [peeked] in *; (split; [reflexivity|split; [|split; [|split]]]); auto; try discriminate; exact I. }
  exact (shown_printable _ Hp' Hd' Hi' Hr').
Qed.

(** A repeated requirement is shown exactly as it is written. *)
Theorem C64_requirement_text : forall r x, Written (TReq r) x ->
  show_parsing_error (ESem (DuplicateRequirement r)) = Some ("requirement " ++ x).
Proof.
  intros r x Hw. cbn [show_parsing_error show_sem_err]. do 2 f_equal.
  inversion Hw as [| | | | | | | | | |t w Hi Et Ex|t w Hi Et Ex| |]; subst; [|destruct Hi].
  destruct r; cbn in Hi; try (destruct Hi; fail); destruct Hi as [<-|[]]; reflexivity.
Qed.

(** What is shown for `imply` is no way to write it, and what is shown for
    `define` is none either. *)
Theorem C64_imply_refuted :
  Written (TOp OImplication) "imply"
  /\ (forall x, fits (show_token (TOp OImplication)) x -> ~ names (TOp OImplication) x)
  /\ Written (TKeyword KDefine) "define"
  /\ (forall x, show_token (TKeyword KDefine) = "Keyword " ++ x -> ~ names (TKeyword KDefine) x).
Proof.
  split; [apply wr_bare; cbn; auto|]. split.
  - intros x Hf. apply fits_only in Hf; [|notin]. subst x.
    intros [Hw|Hw]; inversion Hw; subst; match goal with Hx : In _ _ |- _ => cbn in Hx; intuition discriminate end.
  - split; [apply wr_bare; cbn; auto|]. intros x Ex. injection Ex as <-.
    intros [Hw|Hw]; inversion Hw; subst; match goal with Hx : In _ _ |- _ => cbn in Hx; intuition discriminate end.
Qed.
(** A real number need not be shown as it is written, and may be shown as one
    writes an integer. *)
Theorem C64_real_refuted :
  Written (TNumber (Real "0.10")) "0.10" /\ show_token (TNumber (Real "0.10")) = "Number 0.1"
  /\ ~ names (TNumber (Real "0.10")) "0.1"
  /\ Written (TNumber (Real "2.0")) "2.0" /\ show_token (TNumber (Real "2.0")) = "Number 2" /\ Written (TNumber (Integer 2)) "2".
Proof.
  split; [apply (wr_real "0" "10"); cbn; auto; discriminate|]. split; [vm_compute; reflexivity|]. split.
  { intros [Hw|Hw]; inversion Hw; subst; try congruence; match goal with Hx : In _ _ |- _ => cbn in Hx; intuition discriminate end. }
  split; [apply (wr_real "2" "0"); cbn; auto; discriminate|]. split; [vm_compute; reflexivity|].
  apply (wr_integer "2"); cbn; auto; discriminate.
Qed.
End S.

Definition show_theorems := (@C64_token_text, @C64_real_text, @C64_real_decimals, @C64_found_text, @C64_requirement_text, @C64_imply_refuted, @C64_real_refuted).

(** Non-vacuity: messages with keywords, identifiers, numbers, operators. *)
Definition said (program : string) : option string :=
  match @parse uni0 200 program with Err e => show_parsing_error e | _ => None end.
Definition message (expected found : string) : option string :=
  Some ("line 1: expected '" ++ expected ++ "', but found '" ++ found ++ "'" ++ nl).
Example C64_example :
  map said ["(define (domain d) (:types :tasks))"; "(define (domain d) (:types x 5 ))"; "(define (domain d) (:types imply))";
            "(define (domain d) (:types and))"; "(define (domain d) (:types :typing))"; "(define (domain d) (?types"]
  = [message "an identifier" "Keyword :(sub)tasks"; message "an identifier" "Number 5"; message "an identifier" "when";
     message "an identifier" "and"; message "an identifier" "Requirement :typing";
     message "a keyword" "Identifier type"].
Proof. vm_compute. reflexivity. Qed.
Example C64_example_real : said "(define (domain d) (:types 0.50 ))" = message "an identifier" "Number 0.5".
Proof. vm_compute. reflexivity. Qed.
Example C64_example_decimals :
  map show_number [Real "0.00"; Real "007.500"; Real "12.000"; Real "0.00010"; Real "0.30000000000000000001"]
  = ["0"; "7.5"; "12"; "0.0001"; "0.3"].
Proof. vm_compute. reflexivity. Qed.
