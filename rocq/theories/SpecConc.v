(** Specifications for the concurrent language server (C49-C52). *)
From Coq Require Import String Ascii NArith Bool List.
From Verif Require Import Base Token Lexer Errors Ast Parser Semantic Tdg Api Lsp StrFacts SpecIo Conc.
Import ListNotations.
Open Scope list_scope.

(** The messages of an execution in the order of their arrival; a message is
    named by its position in this list. *)
Fixpoint arrivals (ls : list label) : list message :=
  match ls with
  | [] => []
  | LArrive m :: ls' => m :: arrivals ls'
  | _ :: ls' => arrivals ls'
  end.

Section Serial.
Context `{Unicode}.
Variable he : hash_env.
Variables fuel limit : nat.
Variable d0 : disk.

(** At some moment of the execution, when message [i] had arrived and had not
    been answered, the server was in state [s]. *)
Definition during (ls : list label) (i : nat) (s : server) : Prop :=
  exists ls1 ls2, ls = ls1 ++ ls2 /\ steps he fuel limit (start d0) ls1 = Some s
    /\ i < length (arrivals ls1) /\ ~ In i (map fst (sent s)).
Definition read_during (ls : list label) (i : nat) (path content : string) : Prop :=
  exists s, during ls i s /\ read_file (disk_now s) path = Some content.
Definition listed_during (ls : list label) (i : nat) (folder : string) (paths : list string) : Prop :=
  exists s, during ls i s /\ read_dir (disk_now s) folder = Some paths.

(** [dir] is what was looked at in the folder of [uri] for message [i]: a
    beginning of its listing, with contents the files had meanwhile, and the
    whole listing unless it ends in a domain. *)
Definition looked_at (ls : list label) (i : nat) (uri : string) (dir : list dir_entry) : Prop :=
  exists path folder seen unseen,
    to_file_path uri = Some path /\ parent path = Some folder
    /\ listed_during ls i folder (seen ++ unseen)
    /\ Forall2 (fun p e => fst e = known_extension p
                  /\ (fst e = true -> read_during ls i p (snd e))) seen dir
    /\ (unseen = [] \/ exists before dom, dir = before ++ [(true, dom)] /\ classify dom = Some VDomain).

(** The event of the sequential server ([Lsp.handle]) that message [i] amounts
    to when the documents are [ds]: what it finds on the disk is what was there
    while it was handled. *)
Inductive amounts (ls : list label) (i : nat) (ds : documents) : message -> event -> Prop :=
| am_open uri text : amounts ls i ds (MOpen uri text) (DidOpen uri text)
| am_save uri text : amounts ls i ds (MSave uri (Some text)) (DidSave uri (Some text) None)
| am_saved uri text : read_during ls i (url_path uri) text ->
    amounts ls i ds (MSave uri None) (DidSave uri None (Some text))
| am_change uri cs : amounts ls i ds (MChange uri cs) (DidChange uri cs)
| am_diagnose uri dir :
    (forall c, doc_lookup uri ds = Some c -> classify c = Some VProblem -> looked_at ls i uri dir) ->
    amounts ls i ds (MDiagnose uri) (Diagnose uri dir).

(** Handling the messages named in [out] one after the other, each without
    interruption, gives these replies and leads from the first to the last
    documents. *)
Inductive served (ls : list label) : documents -> list (nat * option reply) -> documents -> Prop :=
| served_none ds : served ls ds [] ds
| served_next ds i m e ds1 r out ds2 :
    nth_error (arrivals ls) i = Some m -> amounts ls i ds m e ->
    handle he fuel ds e = Ok (ds1, r) -> served ls ds1 out ds2 ->
    served ls ds ((i, r) :: out) ds2.

(** Handlers are polled for the first time in the order of arrival. *)
Definition is_fresh (s : server) (i : nat) : Prop :=
  exists m, nth_error (tasks s) i = Some (m, Fresh).
Definition begun_in_order (ls : list label) : Prop :=
  forall ls1 i ls2 s, ls = ls1 ++ LPoll i :: ls2 -> steps he fuel limit (start d0) ls1 = Some s ->
    is_fresh s i -> forall j, j < i -> ~ is_fresh s j.

(** Work between two states: one poll, after changes of the disk and
    cancellations. *)
Definition background (l : label) : Prop :=
  match l with LDisk _ | LCancel _ => True | _ => False end.
Definition works (s s' : server) : Prop :=
  exists ls i, Forall background ls /\ steps he fuel limit s (ls ++ [LPoll i]) = Some s'.

(** [fatal ls s i m h]: in state [s], reached by [ls], handling message [i],
    which is [m], ends the server with [h]. *)
Inductive fatal (ls : list label) (s : server) (i : nat) : message -> health -> Prop :=
(* a saved file that cannot be read *)
| fatal_save uri : read_file (disk_now s) (url_path uri) = None -> fatal ls s i (MSave uri None) (Crashed PanicUnwrap)
(* a document that is not a file in a folder that can be listed *)
| fatal_url uri : to_file_path uri = None -> fatal ls s i (MDiagnose uri) (Crashed PanicUnwrap)
| fatal_root uri path : to_file_path uri = Some path -> parent path = None -> fatal ls s i (MDiagnose uri) (Crashed PanicUnwrap)
| fatal_folder uri path folder : to_file_path uri = Some path -> parent path = Some folder ->
    read_dir (disk_now s) folder = None -> fatal ls s i (MDiagnose uri) (Crashed PanicUnwrap)
(* a folder whose name is not text *)
| fatal_name uri path folder : to_file_path uri = Some path -> parent path = Some folder ->
    utf8_ok folder = false -> fatal ls s i (MDiagnose uri) (Crashed PanicUnwrap)
(* a file of this folder that cannot be read or classified *)
| fatal_file uri path folder paths file : to_file_path uri = Some path -> parent path = Some folder ->
    listed_during ls i folder paths -> In file paths -> known_extension file = true ->
    read_file (disk_now s) file = None -> fatal ls s i (MDiagnose uri) (Crashed PanicUnwrap)
| fatal_file_text uri path folder paths file c : to_file_path uri = Some path -> parent path = Some folder ->
    listed_during ls i folder paths -> In file paths -> known_extension file = true ->
    read_file (disk_now s) file = Some c -> classify c = None -> fatal ls s i (MDiagnose uri) (Crashed PanicIndex)
(* the sequential server panics or does not return either *)
| fatal_analysis uri dir p :
    (forall c, doc_lookup uri (docs s) = Some c -> classify c = Some VProblem -> looked_at ls i uri dir) ->
    diagnose he fuel (docs s) uri dir = Panic p -> fatal ls s i (MDiagnose uri) (Crashed p)
| fatal_endless uri dir :
    (forall c, doc_lookup uri (docs s) = Some c -> classify c = Some VProblem -> looked_at ls i uri dir) ->
    diagnose he fuel (docs s) uri dir = OutOfFuel -> fatal ls s i (MDiagnose uri) Hung.
End Serial.

(** A handler that is neither finished nor cancelled. *)
Definition unfinished (s : server) (i : nat) : Prop :=
  exists m p, nth_error (tasks s) i = Some (m, p) /\ is_over p = false.
Definition cancelled (s : server) (i : nat) : Prop :=
  exists m, nth_error (tasks s) i = Some (m, Dropped).

(** The text the client sent last for a document. *)
Definition text_for (uri : string) (m : message) : option string :=
  match m with
  | MOpen u text | MSave u (Some text) | MChange u (text :: _) =>
    if String.eqb u uri then Some text else None
  | _ => None
  end.
Fixpoint last_text (uri : string) (ms : list message) : option string :=
  match ms with
  | [] => None
  | m :: ms' =>
    match last_text uri ms' with
    | Some text => Some text
    | None => text_for uri m
    end
  end.
(** The message makes the server read the disk before it takes the lock. *)
Definition saves_from_disk (m : message) : Prop :=
  match m with MSave _ None => True | _ => False end.

(** ** URLs of files *)
(** [c] is a hexadecimal digit of value [n]. *)
Definition hex (n : N) (c : ascii) : Prop :=
  String.get (N.to_nat n) "0123456789abcdef" = Some c \/ String.get (N.to_nat n) "0123456789ABCDEF" = Some c.
(** [u] writes the path [p] in a URL: bytes stand for themselves or are
    escaped; a percent sign, a question mark and a hash sign must be escaped. *)
Inductive escaped : string -> string -> Prop :=
| esc_nil : escaped "" ""
| esc_plain c p u : c <> "%"%char -> c <> "?"%char -> c <> "#"%char ->
    escaped p u -> escaped (String c p) (String c u)
| esc_byte c x y a b p u : hex x a -> hex y b -> c = ascii_of_N (16 * x + y) ->
    escaped p u -> escaped (String c p) (String "%" (String a (String b u))).

(** ** The lock *)
(** The handler waits for the lock / has not asked for it yet / has got it. *)
Definition waits (s : server) (i : nat) : Prop :=
  exists m p, nth_error (tasks s) i = Some (m, p) /\ (p = WaitRead \/ exists c, p = WaitWrite c).
Definition has_not_asked (s : server) (i : nat) : Prop :=
  forall m p, nth_error (tasks s) i = Some (m, p) -> p = Fresh \/ p = Reading.
Definition got_lock (s : server) (i : nat) : Prop :=
  exists m p, nth_error (tasks s) i = Some (m, p) /\ (holds_guard p = true \/ p = Done)
    /\ forall u, m <> MChange u [].
