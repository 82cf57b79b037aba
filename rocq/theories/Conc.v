(** The language server as a concurrent program: src/language_server/
    request_handler.rs with the handlers interleaved at their await points.

    tower-lsp 0.20 creates one future per incoming message and polls at most
    [limit] (default 4) of them at a time; the futures share the documents
    through a tokio RwLock, which serves its waiters first come, first served
    (tokio documents this fairness).  One poll runs a handler up to its next
    await.  The client may cancel a request ($/cancelRequest), which drops the
    future together with its lock guard.  A panic unwinds the task that polls
    all handlers, so it ends the server; so does an analysis that never returns.

    Simplifications: awaiting the client's log channel always succeeds; a
    folder is listed at one moment (the files are read later, one by one, so
    they may have changed meanwhile), and a listing that fails half way is a
    shorter listing. *)
From Coq Require Import String Ascii NArith Bool List Arith.
From Verif Require Import Base Token Lexer Errors Ast Parser Semantic Tdg Api Lsp.
Import ListNotations.
Open Scope string_scope.
Open Scope list_scope.

(** ** URLs and paths *)
(** Split at the first occurrence of a character. *)
Fixpoint split_first (c : ascii) (s : string) : option (string * string) :=
  match s with
  | EmptyString => None
  | String a s' =>
    if Ascii.eqb a c then Some ("", s')
    else match split_first c s' with
         | Some (x, y) => Some (String a x, y)
         | None => None
         end
  end.
(** Split at the last occurrence of a character. *)
Fixpoint split_last (c : ascii) (s : string) : option (string * string) :=
  match s with
  | EmptyString => None
  | String a s' =>
    match split_last c s' with
    | Some (x, y) => Some (String a x, y)
    | None => if Ascii.eqb a c then Some ("", s') else None
    end
  end.
(** The text before the first occurrence, or all of it. *)
Definition upto (c : ascii) (s : string) : string :=
  match split_first c s with Some (x, _) => x | None => s end.

(** The parts of a serialized URL (crate url: [Url] is its serialization):
    what follows the scheme, without query and fragment. *)
Definition url_hier (uri : string) : string :=
  match split_first ":" uri with
  | Some (_, r) => upto "?" (upto "#" r)
  | None => ""
  end.
(** Url::path: still percent-encoded. *)
Definition url_path (uri : string) : string :=
  match url_hier uri with
  | String "/" (String "/" r) =>
    match split_first "/" r with Some (_, p) => String "/" p | None => "" end
  | r => r
  end.
(** The authority; empty if there is none. *)
Definition url_host (uri : string) : string :=
  match url_hier uri with
  | String "/" (String "/" r) => upto "/" r
  | _ => ""
  end.

Definition hex_digit (c : ascii) : option N :=
  if is_digit c then Some (code c - 48)%N
  else if in_range 65 70 c then Some (code c - 55)%N
  else if in_range 97 102 c then Some (code c - 87)%N
  else None.
(** Crate percent_encoding: a percent sign without two hexadecimal digits
    stands for itself. *)
Fixpoint percent_decode (s : string) : string :=
  match s with
  | String "%" (String a (String b r as r1) as r0) =>
    match hex_digit a, hex_digit b with
    | Some x, Some y => String (ascii_of_N (16 * x + y)) (percent_decode r)
    | _, _ => String "%" (percent_decode r0)
    end
  | String c r => String c (percent_decode r)
  | EmptyString => ""
  end.
(** Url::to_file_path on Unix: needs a rooted path on this machine. *)
Definition to_file_path (uri : string) : option string :=
  match url_path uri with
  | String "/" _ as p =>
    if String.eqb (url_host uri) "" || String.eqb (url_host uri) "localhost"
    then Some (percent_decode p) else None
  | _ => None
  end.

(** std::path: trailing slashes do not count. *)
Fixpoint strip_slashes (s : string) : string :=
  match s with
  | EmptyString => ""
  | String a s' =>
    let r := strip_slashes s' in
    if Ascii.eqb a "/" && String.eqb r "" then "" else String a r
  end.
(** Path::parent of a rooted path. *)
Definition parent (path : string) : option string :=
  match split_last "/" (strip_slashes path) with
  | Some (p, _) =>
    let r := strip_slashes p in Some (if String.eqb r "" then "/" else r)
  | None => None
  end.
(** Path::file_name and Path::extension: what follows the last dot of the last
    component, unless that dot is its first character. *)
Definition extension (path : string) : option string :=
  let name := match split_last "/" path with Some (_, n) => n | None => path end in
  if String.eqb name ".." then None else
  match split_last "." name with
  | Some (EmptyString, _) => None
  | Some (_, e) => Some e
  | None => None
  end.
(** request_handler.rs 120-121: the two known extensions. *)
Definition known_extension (path : string) : bool :=
  match extension path with
  | Some e => String.eqb e "hddl" || String.eqb e "pddl"
  | None => false
  end.

(** request_handler.rs 130, 150: [root_folder.to_str().unwrap()] in the log
    messages needs a folder whose name is valid UTF-8. *)
Definition folder_printable (uri : string) : bool :=
  match to_file_path uri with
  | Some path => match parent path with Some folder => utf8_ok folder | None => false end
  | None => false
  end.

(** ** Messages, handlers and the server *)
(** The file system at one moment: reading a file and listing a folder, [None]
    for an error. *)
Record disk := mkDisk {
  read_file : string -> option string;
  read_dir : string -> option (list string)
}.

(** Incoming messages (request_handler.rs 65, 72, 84, 92). *)
Inductive message :=
| MOpen (uri text : string)
| MSave (uri : string) (text : option string)
| MChange (uri : string) (changes : list string)
| MDiagnose (uri : string).
Definition uri_of (m : message) : string :=
  match m with MOpen u _ | MSave u _ | MChange u _ | MDiagnose u => u end.
Definition is_request (m : message) : bool :=
  match m with MDiagnose _ => true | _ => false end.

(** Where a handler stands: what its pending await waits for. *)
Inductive pc :=
| Fresh                                     (* not polled yet *)
| Reading                                   (* 76: tokio::fs::read *)
| WaitWrite (content : string)              (* 24: documents.write() *)
| WaitRead                                  (* 96: documents.read() *)
| Received                                  (* 98-100: log_message *)
| LogDomain                                 (* 104-112: log_message *)
| OpenDir (folder : string)                 (* 118: read_dir *)
| Scan (entries : list string)              (* 119: next_entry *)
| ReadFile (path : string) (entries : list string)  (* 122: tokio::fs::read *)
| LogFound (content : string)               (* 125-134: log_message *)
| LogNotFound                               (* 145-153: log_message *)
| LogNotHddl                                (* 158-166: log_message *)
| Done
| Dropped.                                  (* cancelled *)

(** The read guard lives until the end of the match (96-177). *)
Definition holds_guard (p : pc) : bool :=
  match p with
  | Received | LogDomain | OpenDir _ | Scan _ | ReadFile _ _
  | LogFound _ | LogNotFound | LogNotHddl => true
  | _ => false
  end.
Definition is_over (p : pc) : bool :=
  match p with Done | Dropped => true | _ => false end.
(** Polled, but neither finished nor dropped. *)
Definition is_active (p : pc) : bool :=
  match p with Fresh | Done | Dropped => false | _ => true end.

Inductive health := Running | Crashed (p : panic_site) | Hung.

(** [tasks]: all messages so far in the order of their arrival; [queue]: the
    waiters of the lock; [sent]: the handlers that completed, in this order,
    with their replies; [disk_now]: the file system. *)
Record server := mkServer {
  docs : documents;
  tasks : list (message * pc);
  queue : list nat;
  sent : list (nat * option reply);
  state : health;
  disk_now : disk
}.

Fixpoint set_pc (i : nat) (p : pc) (ts : list (message * pc)) : list (message * pc) :=
  match i, ts with
  | _, [] => []
  | O, (m, _) :: ts' => (m, p) :: ts'
  | S i', t :: ts' => t :: set_pc i' p ts'
  end.

(** Handler [i] suspends at [p]. *)
Definition goto (s : server) (i : nat) (p : pc) : server :=
  mkServer (docs s) (set_pc i p (tasks s)) (queue s) (sent s) (state s) (disk_now s).
(** Handler [i] joins the queue of the lock. *)
Definition wait (s : server) (i : nat) (p : pc) : server :=
  mkServer (docs s) (set_pc i p (tasks s)) (queue s ++ [i]) (sent s) (state s) (disk_now s).
(** Handler [i] leaves the queue. *)
Definition leave (s : server) (i : nat) : server :=
  mkServer (docs s) (tasks s) (filter (fun j => negb (Nat.eqb j i)) (queue s)) (sent s) (state s) (disk_now s).
(** Handler [i] returns. *)
Definition finish (s : server) (i : nat) (r : option reply) : server :=
  mkServer (docs s) (set_pc i Done (tasks s)) (queue s) (sent s ++ [(i, r)]) (state s) (disk_now s).
(** request_handler.rs 24: insert under the write lock; the guard is dropped at
    the end of the statement, without a further await. *)
Definition insert (s : server) (uri content : string) : server :=
  mkServer (sync (docs s) uri content) (tasks s) (queue s) (sent s) (state s) (disk_now s).
Definition set_state (s : server) (h : health) : server :=
  mkServer (docs s) (tasks s) (queue s) (sent s) h (disk_now s).

Section Conc.
Context `{Unicode}.
Variable he : hash_env.
Variable fuel : nat.
(** tower-lsp: the number of handlers polled concurrently. *)
Variable limit : nat.

(** The analysis returns, panics or never returns. *)
Definition conclude (s : server) (i : nat) (o : outcome (list diagnostic)) : server :=
  match o with
  | Ok l => finish s i (Some (Report l))
  | Panic p => set_state s (Crashed p)
  | _ => set_state s Hung
  end.

(** The lock is granted to the first waiter: to a reader if no writer holds it
    (a writer never holds it at an await), to a writer if no reader holds it. *)
Definition first_waiter (s : server) (i : nat) : bool :=
  match queue s with j :: _ => Nat.eqb j i | [] => false end.
Definition guarded (s : server) : bool := existsb (fun t => holds_guard (snd t)) (tasks s).
Definition active (s : server) : nat := length (filter (fun t => is_active (snd t)) (tasks s)).

(** One poll of handler [i] up to its next await; [None] if it cannot make
    progress.  While a guard is held, the document is a reference into the map
    (it is looked up again here; the borrow checker makes it exist). *)
Definition poll (s : server) (i : nat) : option server :=
  match nth_error (tasks s) i with
  | None => None
  | Some (m, p) =>
    let document := doc_lookup (uri_of m) (docs s) in
    match p with
    | Fresh =>
      if Nat.ltb (active s) limit then
      match m with
      (* 65-70 *)
      | MOpen _ text => Some (wait s i (WaitWrite text))
      (* 72-83 *)
      | MSave _ (Some text) => Some (wait s i (WaitWrite text))
      | MSave _ None => Some (goto s i Reading)
      (* 84-90 *)
      | MChange _ (text :: _) => Some (wait s i (WaitWrite text))
      | MChange _ [] => Some (finish s i None)
      (* 96 *)
      | MDiagnose _ => Some (wait s i WaitRead)
      end
      else None
    | Reading =>
      match read_file (disk_now s) (url_path (uri_of m)) with
      | None => Some (set_state s (Crashed PanicUnwrap))
      | Some content => Some (wait s i (WaitWrite content))
      end
    | WaitWrite content =>
      if first_waiter s i && negb (guarded s)
      then Some (finish (insert (leave s i) (uri_of m) content) i None) else None
    | WaitRead =>
      if first_waiter s i then
        match document with
        | None => Some (finish (leave s i) i (Some (InvalidParams (uri_of m))))   (* 171-176 *)
        | Some _ => Some (goto (leave s i) i Received)
        end
      else None
    | Received =>
      match to_file_path (uri_of m), document with
      | Some path, Some content =>
        match classify content with
        | None => Some (set_state s (Crashed PanicIndex))
        | Some VDomain => Some (goto s i LogDomain)
        | Some VProblem =>
          match parent path with
          | Some folder => Some (goto s i (OpenDir folder))
          | None => Some (set_state s (Crashed PanicUnwrap))
          end
        | Some VMaybeNotHDDL => Some (goto s i LogNotHddl)
        end
      | _, _ => Some (set_state s (Crashed PanicUnwrap))
      end
    | LogDomain =>
      match document with
      | Some content => Some (conclude s i (diagnose_domain he fuel content))
      | None => Some (set_state s (Crashed PanicUnwrap))
      end
    | OpenDir folder =>
      match read_dir (disk_now s) folder with
      | None => Some (set_state s (Crashed PanicUnwrap))
      | Some entries => Some (goto s i (Scan entries))
      end
    | Scan [] =>
      if folder_printable (uri_of m) then Some (goto s i LogNotFound)
      else Some (set_state s (Crashed PanicUnwrap))
    | Scan (path :: entries) =>
      if known_extension path then Some (goto s i (ReadFile path entries))
      else Some (goto s i (Scan entries))
    | ReadFile path entries =>
      match read_file (disk_now s) path with
      | None => Some (set_state s (Crashed PanicUnwrap))
      | Some content =>
        match classify content with
        | None => Some (set_state s (Crashed PanicIndex))
        | Some VDomain =>
          if folder_printable (uri_of m) then Some (goto s i (LogFound content))
          else Some (set_state s (Crashed PanicUnwrap))
        | Some _ => Some (goto s i (Scan entries))
        end
      end
    | LogFound dom =>
      match document with
      | Some content => Some (conclude s i (diagnose_problem he fuel (Some dom) content))
      | None => Some (set_state s (Crashed PanicUnwrap))
      end
    | LogNotFound =>
      match document with
      | Some content => Some (conclude s i (diagnose_problem he fuel None content))
      | None => Some (set_state s (Crashed PanicUnwrap))
      end
    | LogNotHddl => Some (finish s i (Some (Report [])))
    | Done | Dropped => None
    end
  end.

(** $/cancelRequest: an unfinished request is dropped. *)
Definition cancel (s : server) (i : nat) : option server :=
  match nth_error (tasks s) i with
  | Some (m, p) =>
    if is_request m && negb (is_over p) then Some (goto (leave s i) i Dropped) else None
  | None => None
  end.

(** What can happen: a message arrives, a handler is polled, a request is
    cancelled, the file system changes. *)
Inductive label := LArrive (m : message) | LPoll (i : nat) | LCancel (i : nat) | LDisk (d : disk).

Definition act (s : server) (l : label) : option server :=
  match state s with
  | Running =>
    match l with
    | LArrive m =>
      Some (mkServer (docs s) (tasks s ++ [(m, Fresh)]) (queue s) (sent s) (state s) (disk_now s))
    | LPoll i => poll s i
    | LCancel i => cancel s i
    | LDisk d => Some (mkServer (docs s) (tasks s) (queue s) (sent s) (state s) d)
    end
  | _ => None
  end.

(** An execution: the labels in order. *)
Fixpoint steps (s : server) (ls : list label) : option server :=
  match ls with
  | [] => Some s
  | l :: ls' => match act s l with Some s' => steps s' ls' | None => None end
  end.

(** request_handler.rs 15-20: no documents. *)
Definition start (d : disk) : server := mkServer [] [] [] [] Running d.

End Conc.
