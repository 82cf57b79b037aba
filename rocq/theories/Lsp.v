(** The language server: src/language_server.  Handlers are modelled as atomic
    state transformers here; Conc.v interleaves them at their await points and
    PropsConc.v (C49) relates the two.  The file system is an input of each event. *)
From Coq Require Import String NArith Bool List.
From Verif Require Import Base Token Lexer Errors Ast Parser Semantic Tdg Api.
Import ListNotations.
Open Scope string_scope.
Open Scope list_scope.

(** lsp_types::DiagnosticSeverity (the two used). *)
Inductive severity := SevError | SevInformation.

(** lsp_types::Diagnostic as built by diagnostic_utils.rs 147-315: the range
    runs from column 0 of [dg_start] to column 0 of [dg_end]; code, tags, source
    are constant. *)
Record diagnostic := mkDiag {
  dg_start : N;
  dg_end : N;
  dg_severity : severity;
  dg_message : string
}.

(** A diagnostic covering one line; [line - 1] on a u32 (PanicUnderflow in
    debug builds for line 0). *)
Definition line_diag (ln : N) (msg : option string) : outcome diagnostic :=
  if (ln =? 0)%N then Panic PanicUnderflow
  else match msg with
       | None => Panic PanicUnreachable
       | Some m => Ok (mkDiag (ln - 1) ln SevError m)
       end.

(** diagnostic_utils.rs 147-315.  For duplicates the related information
    evaluates Url::parse("//").unwrap(), and "//" is a relative URL without a
    base, so parsing fails and the unwrap panics. *)
Definition to_diagnostic (e : parsing_error) : outcome diagnostic :=
  match e with
  | ELex l => line_diag (le_line l) (Some (show_lex_err l))
  | ESyn s => line_diag (se_line s) (Some (show_syn_err s))
  | ESem x =>
    let msg := show_sem_err x in
    match x with
    | DuplicateObject _ | DuplicatePredicate _ | DuplicateAction _
    | DuplicateCompoundTask _ | DuplicateMethod _ | DuplicateParameter _ => Panic PanicUrl
    | DuplicateRequirement _ =>
      match msg with
      | Some m => Ok (mkDiag 0 1 SevInformation m)
      | None => Panic PanicUnreachable
      end
    | UndefinedPredicate u | UndefinedType u | UndefinedSubtask u | UndefinedTask u
    | UndefinedParameter u | UndefinedObject u => line_diag (un_pos u) msg
    | InconsistentPredicateArity a | InconsistentTaskArity a => line_diag (ar_pos a) msg
    | InconsistentPredicateArgType t | InconsistentTaskArgType t => line_diag (ty_pos t) msg
    | CyclicType =>
      match msg with
      | Some m => Ok (mkDiag 0 10 SevError m)
      | None => Panic PanicUnreachable
      end
    | CyclicOrdering p => line_diag p msg
    end
  end.

(** items.push(error.into()) for a result that may be an error. *)
Definition report {A} (r : outcome A) : outcome (option A * list diagnostic) :=
  match r with
  | Ok a => Ok (Some a, [])
  | Err e => obind (to_diagnostic e) (fun d => Ok (None, [d]))
  | Panic p => Panic p
  | OutOfFuel => OutOfFuel
  end.

Section Lsp.
Context `{Unicode}.
Variable he : hash_env.

(** diagnostic_utils.rs 23-56: a document that is not a domain gets no item. *)
Definition diagnose_domain (fuel : nat) (content : string) : outcome (list diagnostic) :=
  obind (report (parse fuel content)) (fun r =>
  match fst r with
  | Some (ADomain d) =>
    obind (report (verify_domain he fuel d)) (fun r' => Ok (snd r ++ snd r'))
  | _ => Ok (snd r)
  end).

(** diagnostic_utils.rs 73-144. *)
Definition diagnose_problem (fuel : nat) (domain : option string) (problem : string)
  : outcome (list diagnostic) :=
  obind (match domain with
         | None => Ok (None, [])
         | Some content =>
           obind (report (parse fuel content)) (fun r =>
           match fst r with
           | Some (ADomain d) =>
             obind (report (verify_domain he fuel d)) (fun r' =>
             Ok (fst r', snd r ++ snd r'))
           | _ => Ok (None, snd r)
           end)
         end) (fun dom =>
  obind (report (parse fuel problem)) (fun r =>
  match fst r, fst dom with
  | Some (AProblem p), Some tb =>
    obind (report (verify_problem tb p)) (fun r' => Ok (snd dom ++ snd r ++ snd r'))
  | _, _ => Ok (snd dom ++ snd r)
  end)).

(** request_handler.rs 12: the synchronized documents, most recent first. *)
Definition documents := list (string * string).

Fixpoint doc_lookup (uri : string) (ds : documents) : option string :=
  match ds with
  | [] => None
  | (u, c) :: ds' => if String.eqb u uri then Some c else doc_lookup uri ds'
  end.

(** request_handler.rs 23-25: HashMap::insert replaces the old binding. *)
Definition sync (ds : documents) (uri content : string) : documents :=
  (uri, content) :: filter (fun uc => negb (String.eqb (fst uc) uri)) ds.

(** A directory entry: (has extension hddl or pddl, content). *)
Definition dir_entry := (bool * string)%type.

(** Incoming messages.  [DidSave]: the text included in the notification, or
    the result of reading the file ([None]: reading fails).  [Diagnose]: the
    directory listing of the parent folder in read_dir order. *)
Inductive event :=
| DidOpen (uri text : string)
| DidSave (uri : string) (text : option string) (on_disk : option string)
| DidChange (uri : string) (changes : list string)
| Diagnose (uri : string) (dir : list dir_entry).

(** Reply to a diagnostic request. *)
Inductive reply :=
| Report (items : list diagnostic)
| InvalidParams (uri : string).

(** request_handler.rs 119-143: the first classified domain file. *)
Fixpoint find_domain (dir : list dir_entry) : outcome (option string) :=
  match dir with
  | [] => Ok None
  | (true, content) :: dir' =>
    match classify content with
    | None => Panic PanicIndex
    | Some VDomain => Ok (Some content)
    | Some _ => find_domain dir'
    end
  | (false, _) :: dir' => find_domain dir'
  end.

(** request_handler.rs 92-178 (the URI is assumed to be a file URL with a
    parent folder). *)
Definition diagnose (fuel : nat) (ds : documents) (uri : string) (dir : list dir_entry)
  : outcome reply :=
  match doc_lookup uri ds with
  | None => Ok (InvalidParams uri)
  | Some document =>
    match classify document with
    | None => Panic PanicIndex
    | Some VDomain => obind (diagnose_domain fuel document) (fun l => Ok (Report l))
    | Some VProblem =>
      obind (find_domain dir) (fun dom =>
      obind (diagnose_problem fuel dom document) (fun l => Ok (Report l)))
    | Some VMaybeNotHDDL => Ok (Report [])
    end
  end.

(** request_handler.rs 65-178: one message; returns the new documents and the
    reply, if the message is a request. *)
Definition handle (fuel : nat) (ds : documents) (e : event)
  : outcome (documents * option reply) :=
  match e with
  | DidOpen uri text => Ok (sync ds uri text, None)
  | DidSave uri (Some text) _ => Ok (sync ds uri text, None)
  | DidSave uri None (Some text) => Ok (sync ds uri text, None)
  | DidSave uri None None => Panic PanicUnwrap
  | DidChange uri (text :: _) => Ok (sync ds uri text, None)
  | DidChange uri [] => Ok (ds, None)
  | Diagnose uri dir =>
    obind (diagnose fuel ds uri dir) (fun r => Ok (ds, Some r))
  end.

(** A whole session: replies in order. *)
Fixpoint session (fuel : nat) (ds : documents) (es : list event)
  : outcome (documents * list reply) :=
  match es with
  | [] => Ok (ds, [])
  | e :: es' =>
    obind (handle fuel ds e) (fun r =>
    obind (session fuel (fst r) es') (fun r' =>
    Ok (fst r', match snd r with Some x => x :: snd r' | None => snd r' end)))
  end.

End Lsp.
