(** Property theorems about what a syntax error says it expected (C59).
    Specification: SpecExpect.v. *)
From Coq Require Import String Ascii NArith ZArith Bool List Lia PeanoNat.
From Verif Require Import Base Token Lexer Errors Ast Parser StrFacts SpecLex LexProofs LexProofs2 LexProofs3 ParserProofs
  ParserPrefix ParserShapes ParserPrefix2 SpecBlame SpecExpect ParserBlame PropsLex PropsParse PropsBlame.
Import ListNotations.
Open Scope list_scope.
Open Scope nat_scope.

Section S.
Context `{Unicode}.

Lemma read_printable st t st' : get_token st = (LTok t, st') -> t <> TEOF -> printable t.
Proof. intros G Hn. pose proof (C07_content _ _ _ G) as Hc. destruct t; simpl in *; auto; congruence. Qed.
Lemma writable_printable t : writable t -> t <> TEOF -> printable t.
Proof. intros (x & l & st & Hr) Hn. apply reads_cons_inv in Hr as (s & G & _). eapply read_printable; eauto. Qed.
Lemma printable_writable t : printable t -> writable t.
Proof.
  intros Hp. destruct (reads_printed [t] 1%N (Forall_cons _ Hp (Forall_nil _))) as (z & ts & st & Et & Hr).
  destruct ts as [|[u l] [|]]; try discriminate. cbn in Et. injection Et as ->. exists (String " " z), l, st. exact Hr.
Qed.
Lemma written_read t w d r l : Written t w -> delimiter d -> get_token (mkL (String " " (w ++ String d r)) l) = (LTok t, mkL (String d r) l).
Proof.
  intros Hw Hd. apply get_token_spec. exists " "%string, (w ++ String d r)%string. cbn [rest line]. split; [reflexivity|].
  split; [apply gap_ws; [unfold ws; auto|constructor]|]. split; [apply written_spells; auto|]. cbn. lia.
Qed.
Lemma written_printable t w : Written t w -> printable t.
Proof.
  intros Hw. eapply read_printable; [apply (written_read t w " "%char "" 1%N Hw); unfold delimiter, ws; auto|].
  intros ->. inversion Hw; subst; match goal with Hx : In _ _ |- _ => destruct Hx end.
Qed.
Lemma eof_unnamed x l full : phrase x l full -> ~ named l TEOF.
Proof.
  intros Hp (w & Hw & Hc). destruct Hp; unfold formula_starts in *; simpl in Hw;
    repeat (destruct Hw as [<-|Hw]; [cbn in Hc; try discriminate; destruct Hc; discriminate|]); auto.
Qed.
Lemma something_named x l full : phrase x l full -> exists u, named l u /\ printable u.
Proof.
  assert (forall w l u, covers w u -> printable u -> exists u, named (w :: l) u /\ printable u) as Hx.
  { intros w l' u Hc Hp. exists u. split; auto. exists w. split; [left|]; auto. }
  destruct 1; unfold open_, close_, kw, formula_starts;
    first [eapply Hx; [cbn; reflexivity|exact I] | eapply Hx; [cbn; exists "x"%string; reflexivity|exact x_printable]
          | eapply (Hx _ _ (TNumber (Integer 0%Z))); [cbn; eexists; reflexivity|cbn; split; discriminate]
          | eapply (Hx _ _ (TReq STRIPS)); [cbn; eexists; reflexivity|cbn; discriminate]].
Qed.
Lemma token_dec (a b : token) : {a = b} + {a <> b}.
Proof. repeat decide equality. Qed.
Lemma named_dec l u : named l u \/ ~ named l u.
Proof.
  induction l as [|w l IH].
  - right. intros (w & [] & _).
  - assert (covers w u \/ ~ covers w u) as [Hw|Hw].
    { destruct w as [v| | |]; cbn [covers]; [destruct (token_dec u v); auto|..];
        destruct u; first [left; eexists; reflexivity|right; intros (? & ?); discriminate]. }
    + left. exists w. split; [left|]; auto.
    + destruct IH as [(v & Hv & Hc)|IH]; [left; exists v; split; [right|]; auto|].
      right. intros (v & [<-|Hv] & Hc); [auto|]. apply IH. exists v. auto.
Qed.
Lemma viable_writable ts u : viable (ts ++ [u]) -> writable u.
Proof.
  intros (p & us & more & st & n & a & Hr & Em & _). destruct (token_dec u TEOF) as [->|Hne].
  { exists ""%string, 1%N, (lex_new ""). apply (rd_cons _ TEOF (lex_new "")); [reflexivity|]. apply rd_nil. }
  apply printable_writable. rewrite <- app_assoc in Em. apply map_eq_app in Em as (u1 & u2 & -> & _ & E2).
  apply reads_app_inv in Hr as (s1 & _ & R2). destruct u2 as [|[t' l] u2]; [discriminate|]. cbn in E2. injection E2 as -> _.
  apply reads_cons_inv in R2 as (s2 & G & _). eapply read_printable; eauto.
Qed.

(** What the message names could stand in place of the reported token, which is
    none of it; a message that claims to name everything does. *)
Theorem C59_expected : forall n program e, parse n program = Err (ESyn e) ->
  exists ts t l full, stands_at program ts (LTok t) (se_line e)
    /\ (se_found e = t \/ se_found e = peeked t)
    /\ phrase (se_expected e) l full
    /\ (exists u, named l u /\ writable u) /\ ~ named l t
    /\ (forall u, named l u -> writable u -> viable (map fst ts ++ [u]))
    /\ (full = All -> forall u, viable (map fst ts ++ [u]) <-> named l u /\ writable u).
Proof.
  intros n program e E.
  destruct (parse_blame n program (inl (ESyn e)) E) as (ts & st & Hr & Hn & (t & Ht & Hf & Hl) & Hfin & _ & Hx).
  destruct (Hx _ eq_refl) as (l & full & Hp & Hy & Ha).
  assert (forall u, named l u -> writable u -> viable (map fst ts ++ [u])) as Hv.
  { intros u Hu Hw. assert (printable u) as Hpu. { apply writable_printable; auto. intros ->. eapply eof_unnamed; eauto. }
    destruct (Hy u Hu Hpu) as (toks & Hall & Hc).
    destruct (reads_rewritten _ _ _ Hr Hn) as (q & Hq). destruct (reads_printed (u :: toks) (line st) Hall) as (z & us & st1 & Eu & Hus).
    assert (Reads (lex_new (String " " (q ++ z))) ts (mkL (String " " z) (line st))) as Hq' by apply (Hq z).
    destruct (Hc _ _ _ _ Hq' Eu Hus) as (a & m & Ea).
    exists (String " " (q ++ z))%string, (ts ++ us), toks, st1, m, a. split; [eapply reads_app; eauto|].
    split; auto. rewrite map_app, Eu, <- app_assoc. reflexivity. }
  exists ts, t, l, full. split; [exists st; repeat split; auto|]. split; auto. split; auto. split.
  { destruct (something_named _ _ _ Hp) as (u & Hu & Hpu). exists u. split; auto. apply printable_writable. auto. }
  assert (~ viable (map fst ts ++ [t])) as Hnv by (eapply (not_viable program (inl (ESyn e)) ts st); eauto).
  split.
  { intros Hnt. apply Hnv. apply Hv; auto. apply printable_writable. unfold item in Ht. cbn [fst] in Ht.
    destruct (get_token st) as [o s] eqn:G. cbn [fst] in Ht. subst o. eapply read_printable; [exact G|].
    intros ->. eapply eof_unnamed; eauto. }
  split; auto. intros Hfull u. split.
  - intros Hvu. split; [|eapply viable_writable; eauto]. destruct (named_dec l u) as [|Hu]; auto. exfalso.
    destruct (Ha Hfull u (0 + line st)%N Hu) as (f' & Hrej). eapply rejected_not_viable; eauto.
  - intros [Hu Hw]. auto.
Qed.

(** Replacing the reported token and all that follows by what the message asks
    for leaves a text that can be completed to an accepted document. *)
Theorem C59_completion : forall n program e, str_last delimiter program -> parse n program = Err (ESyn e) ->
  exists q r ts t l full, program = (q ++ r)%string
    /\ (exists st, Reads (lex_new program) ts st /\ rest st = r /\ fst (get_token st) = LTok t)
    /\ (se_found e = t \/ se_found e = peeked t)
    /\ phrase (se_expected e) l full
    /\ forall u w, named l u -> Written u w -> exists z a m, parse m (q ++ " " ++ w ++ " " ++ z)%string = Ok a.
Proof.
  intros n program e Hd E.
  destruct (parse_blame n program (inl (ESyn e)) E) as (ts & st & Hr & Hn & (t & Ht & Hf & Hl) & Hfin & _ & Hx).
  destruct (Hx _ eq_refl) as (l & full & Hp & Hy & Ha).
  destruct (reads_again ts (lex_new program) st Hr Hn Hd) as (q & Eq & Hq).
  exists q, (rest st), ts, t, l, full. split; [exact Eq|]. split; [exists st; auto|]. split; auto. split; auto.
  intros u w Hu Hw. destruct (Hy u Hu (written_printable _ _ Hw)) as (toks & Hall & Hc).
  inversion Hall as [|? ? _ Htoks]; subst. destruct (reads_printed toks (line st) Htoks) as (z & us & st1 & Eu & Hus).
  exists z. assert (delimiter " ") as Hsp by (unfold delimiter, ws; auto).
  assert (Reads (lex_new (q ++ " " ++ w ++ " " ++ z)) ts (mkL (String " " (w ++ " " ++ z)) (line st))) as Hq'.
  { apply (Hq " "%char (w ++ " " ++ z)%string Hsp). }
  destruct (Hc _ _ ((u, line st) :: us) st1 Hq') as (a & m & Ea); [cbn; f_equal; exact Eu| |eauto].
  apply (rd_cons _ u (mkL (String " " z) (line st))); [|exact Hus]. apply (written_read u w " "%char z (line st) Hw Hsp).
Qed.

(** Every expectation that ends up in a message is one of the specification. *)
Theorem C59_wording : forall n program e, parse n program = Err (ESyn e) -> exists l full, phrase (se_expected e) l full.
Proof. intros n program e E. destruct (C59_expected n program e E) as (_ & _ & l & full & _ & _ & Hp & _). eauto. Qed.
End S.

(** ** Concrete cases *)
Open Scope string_scope.
(** The message may leave something out: where a predicate definition is
    expected, a closing parenthesis would do as well. *)
Definition no_predicate : string := "(define (domain d) (:predicates x))".
Definition before_x : list (token * N) :=
  [(TPunct LParen, 1%N); (TKeyword KDefine, 1%N); (TPunct LParen, 1%N); (TKeyword KDomain, 1%N); (TIdent "d", 1%N);
   (TPunct RParen, 1%N); (TPunct LParen, 1%N); (TKeyword KPredicates, 1%N)].
Lemma reads_cons `{Unicode} st t l st1 ts st2 : get_token st = (LTok t, st1) -> line st1 = l -> Reads st1 ts st2 -> Reads st ((t, l) :: ts) st2.
Proof. intros G <- Hr. econstructor; eauto. Qed.
Ltac reads := repeat (eapply reads_cons; [vm_compute; reflexivity|reflexivity|]); apply rd_nil.
Theorem C59_names_everything_refuted : exists e ts u,
  @parse uni0 300 no_predicate = Err (ESyn e)
  /\ @stands_at uni0 no_predicate ts (LTok (TIdent "x")) (se_line e)
  /\ @viable uni0 (map fst ts ++ [u])
  /\ forall l full, phrase (se_expected e) l full -> ~ named l u.
Proof.
  eexists. exists before_x, (TPunct RParen). split; [vm_compute; reflexivity|]. split.
  { exists (mkL " x))" 1). split; [|split; vm_compute; reflexivity]. unfold before_x, no_predicate, lex_new. reads. }
  split.
  { exists "(define (domain d) (:predicates ))". exists (before_x ++ [(TPunct RParen, 1%N)])%list, []%list. eexists. exists 300. eexists.
    split; [|split; [reflexivity|vm_compute; reflexivity]]. unfold before_x, lex_new. cbn [app]. reads. }
  intros l full Hp. cbn [se_expected] in Hp. inversion Hp; subst; intros (w & [<-|[]] & Hc); discriminate.
Qed.

Definition expect_theorems := (@C59_expected, @C59_completion, @C59_wording).

(** What the parser says for small faulty documents. *)
Definition says (body : string) : string :=
  match @parse uni0 300 (body ++ nl) with Err (ESyn e) => se_expected e | _ => "" end.
Example C59_example_parts : says "(define (domain d) :types" = "either ')' to close the definition of d, or '(' to start defining new components"
  /\ phrase (says "(define (domain d) :types") [close_; open_] All.
Proof. split; [vm_compute; reflexivity|]. apply (ph_parts "d"). Qed.
(** The hypotheses of the theorems hold for it, and both tokens named can be typed. *)
Example C59_example : exists e, @parse uni0 300 ("(define (domain d) :types" ++ nl) = Err (ESyn e)
  /\ str_last delimiter ("(define (domain d) :types" ++ nl)
  /\ named [close_; open_] (TPunct RParen) /\ named [close_; open_] (TPunct LParen)
  /\ @writable uni0 (TPunct RParen) /\ @writable uni0 (TPunct LParen).
Proof.
  eexists. split; [vm_compute; reflexivity|]. split; [vm_compute; auto|].
  split; [exists close_; split; [left; reflexivity|reflexivity]|]. split; [exists open_; split; [right; left; reflexivity|reflexivity]|].
  split; [exists ")", 1%N, (mkL "" 1)|exists "(", 1%N, (mkL "" 1)]; unfold lex_new; reads.
Qed.
(** Faulty documents for the messages. *)
Definition in_action : string := "(define (domain d) (:action a :parameters () ".
Definition in_method : string := "(define (domain d) (:method m :parameters () :task (t) ".
Definition messages : list (string * string) :=
  [ ("domain", "start of the file with '('");
    ("(domain", "keyword 'define'");
    ("(define domain", "'(' after keyword 'define'");
    ("(define (d", "either keyword 'domain' or 'problem'");
    ("(define (domain (", "domain name");
    ("(define (problem (", "problem name");
    ("(define (domain d d", "')'");
    ("(define (problem d d", "')'");
    ("(define (problem p) domain", "'('");
    ("(define (problem p) (d", "keyword 'domain'");
    ("(define (problem p) (domain ()", "domain name");
    ("(define (problem p) (domain d (", "the block of the definition of problem 'p' is not closed with ')'");
    ("(define (domain d) (types", "a keyword");
    ("(define (problem p) (domain d) (types", "a keyword for block definition");
    ("(define (domain d) (:requirements x", "either a requirement or a ')'");
    ("(define (domain d) (:types (", "an identifier");
    ("(define (domain d) (:types a - (", "The type of objects");
    ("(define (domain d) (:predicates ((", "a predicate name");
    ("(define (domain d) (:functions ((", "a function name");
    ("(define (domain d) (:functions x", "function definition");
    ("(define (domain d) (:predicates x", "predicate definition");
    (in_action ++ ":precondition x", "a (potentially empty) boolean formula definition");
    (in_action ++ ":precondition (not ()())", "closing the not operator with ')'");
    (in_action ++ ":precondition (not (p) x", "closing the not operator with ')'");
    (in_action ++ ":precondition (= (", "left hand side of the equality");
    (in_action ++ ":precondition (= x (", "right hand side of the equality");
    (in_action ++ ":precondition (= x y z", "equality's closing parenthesis");
    (in_action ++ ":precondition (forall x", "'(' after forall keyword");
    (in_action ++ ":precondition (forall (x) (p) x", "')' to close the forall statement");
    (in_action ++ ":precondition (exists x", "'(' after existential quantification keyword");
    (in_action ++ ":precondition (exists (x) (p) x", "')' to close the existential statement");
    (in_action ++ ":effect (probabilistic x", "a probability or ')' to close the probabilistic block");
    (in_action ++ ":effect (probabilistic 0.5 x", "a (potentially empty) boolean formula definition");
    (in_action ++ ":effect (probabilistic 0.5 ())", "a formula following the probability");
    (in_action ++ ":precondition (<", "a boolean formula");
    ("(define (domain d) (:task (", "a task/action name (identifier)");
    ("(define (domain d) (:task t (", "a (potentially empty) list of parameters after defininig t");
    ("(define (domain d) (:task t :parameters x", "'(' after :parameters");
    ("(define (domain d) (:task t :parameters () x", "')' after definition of t");
    (in_action ++ "x", "(potentially empty) preconditions of a");
    (in_action ++ ":precondition () x", "(potentially empty) effects of a");
    (in_action ++ ":effect () x", "closing the scope of a using ')'");
    ("(define (domain d) (:method (", "method name");
    ("(define (domain d) (:method m (", "The parameters of method m ");
    ("(define (domain d) (:method m :parameters x", "'(' after keyword :parameters");
    ("(define (domain d) (:method m :parameters () x", "keyword :task");
    ("(define (domain d) (:method m :parameters () :task x", "'(' after keyword :task");
    ("(define (domain d) (:method m :parameters () :task ((", "The task that method m decomposes");
    (in_method ++ "x", "Either preconditions for m or its decomposition");
    (in_method ++ ":precondition () x", ":subtasks or :ordered-subtasks keyword");
    (in_method ++ ":ordered-subtasks () x", "closing ')' after task network definition");
    (in_method ++ ":subtasks () x", "the (potentially empty) ordering constraints of the task network");
    (in_method ++ ":subtasks x", "'('");
    (in_method ++ ":subtasks (<", "subtask declarations");
    (in_method ++ ":subtasks (and x", "subtask declarations");
    (in_method ++ ":subtasks (and ((", "task id");
    (in_method ++ ":subtasks (and (a <", "subtask definition");
    (in_method ++ ":subtasks (and (a (<", "a subtask name for a!=...");
    (in_method ++ ":subtasks (and (a (b <", "either a ')' or an identifier");
    (in_method ++ ":subtasks (and (a (b) <", "')' to close the block of b");
    (in_method ++ ":subtasks (and (a b <", "either a term for b, or ')'");
    ("(define (problem p) (domain d) (:htn x", "expected the definition of the initial task network");
    ("(define (problem p) (domain d) (:htn :parameters x", "'(' afer keyword :parameters");
    (in_method ++ ":subtasks () :ordering x", "'('");
    (in_method ++ ":subtasks () :ordering (x", "ordering constraints");
    (in_method ++ ":subtasks () :ordering (< <", "expected a task identifier");
    (in_method ++ ":subtasks () :ordering (< a <", "another task id after a");
    (in_method ++ ":subtasks () :ordering (and x", "'('");
    (in_method ++ ":subtasks () :ordering (and (x", "character '<' to start an ordering constraint");
    (in_method ++ ":subtasks () :ordering (and (< <", "task identifier");
    (in_method ++ ":subtasks () :ordering (and (< a <", "the task ids that come after a");
    (in_method ++ ":subtasks () :constraints x", "'('");
    (in_method ++ ":subtasks () :constraints (x", "constraint declerations");
    (in_method ++ ":subtasks () :constraints (and x", "a constraint definition");
    (in_method ++ ":subtasks () :constraints (and (x", "either an equalilty or non-equality constraint");
    (in_method ++ ":subtasks () :constraints (not x", "'(' after keyword 'not'");
    (in_method ++ ":subtasks () :constraints (not (x", "equality keyword '='");
    (in_method ++ ":subtasks () :constraints (not (= <", "task identifier");
    (in_method ++ ":subtasks () :constraints (not (= a <", "right hand side of a!=...");
    (in_method ++ ":subtasks () :constraints (not (= a b <", ") to close the inequality constraint");
    (in_method ++ ":subtasks () :constraints (not (= a b) <", ") to close the inequality constraint");
    (in_method ++ ":subtasks () :constraints (= <", "a task identifier");
    (in_method ++ ":subtasks () :constraints (= a <", "right hand side of a=...");
    (in_method ++ ":subtasks () :constraints (= a b <", ") to close the equality constraint") ].
Example C59_messages : map (fun x => says (fst x)) messages = map snd messages.
Proof. vm_compute. reflexivity. Qed.
