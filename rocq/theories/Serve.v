(** The language server from its first to its last message: src/bin/
    language_server/main.rs and src/language_server/request_handler.rs, with
    the log messages and the life cycle that tower-lsp 0.20 puts around the
    handlers (requests are refused before the handshake and after shutdown,
    nothing is served after exit).  Messages are handled one at a time; Conc.v
    interleaves them and C77_alone relates the two. *)
From Coq Require Import String Ascii NArith ZArith Bool List Arith.
From Verif Require Import Base Token Lexer Errors Ast Parser Semantic Tdg Api Lsp Conc.
Import ListNotations.
Open Scope string_scope.
Open Scope list_scope.

(** ** What the client sends *)
(** Requests carry an identifier.  [RKnown]: a request of the protocol that the
    server does not implement; [RUnknown]: one tower-lsp does not know. *)
Inductive request :=
| RInitialize
| RShutdown
| RDiagnose (uri : string)
| RKnown (method : string)
| RUnknown (method : string).
(** [NOther]: any notification without a handler, such as didClose. *)
Inductive notification :=
| NInitialized
| NExit
| NOpen (uri text : string)
| NSave (uri : string) (text : option string)
| NChange (uri : string) (changes : list string)
| NOther (method uri : string).
Inductive incoming :=
| Request (id : nat) (r : request)
| Notify (n : notification).

(** ** What the server sends *)
(** request_handler.rs 34-54: the two capabilities that are not the default. *)
Record capabilities := mkCapabilities {
  full_text_sync : bool;
  diagnostic_identifier : option string;
  inter_file_dependencies : bool;
  workspace_diagnostics : bool;
  server_name : string;
  server_version : option string
}.
Inductive body :=
| Capable (c : capabilities)
| Null
| Items (l : list diagnostic)
| Failure (code : Z) (message : string) (data : option string).
Inductive outgoing :=
| Respond (id : nat) (b : body)
| LogMessage (text : string).

(** request_handler.rs 30-55. *)
Definition initialize : capabilities :=
  mkCapabilities true (Some "HDDL Server") true false "HDDL Server" (Some "0.1.0").

(** tower-lsp, jsonrpc::Error. *)
Definition not_initialized : body := Failure (-32002) "Server not initialized" None.
Definition invalid_request : body := Failure (-32600) "Invalid request" None.
Definition method_not_found (data : option string) : body := Failure (-32601) "Method not found" data.
(** request_handler.rs 171-176. *)
Definition not_synced (uri : string) : body := Failure (-32602) (uri ++ " is not synced")%string None.

(** tower-lsp, service::state (the handler of initialize has no await, so the
    state between the request and its response is not observed here). *)
Inductive life := Uninitialized | Initialized | ShutDown | Exited.
Record service := mkService { life_of : life; texts : documents }.
(** What becomes of the server. *)
Inductive fate := Serving (s : service) | Ended (h : health).

Section Serve.
Context `{Unicode}.
Variable he : hash_env.
Variable fuel : nat.

(** request_handler.rs 119-143. *)
Fixpoint search (d : disk) (paths : list string) : outcome (option string) :=
  match paths with
  | [] => Ok None
  | p :: paths' =>
    if known_extension p then
      match read_file d p with
      | None => Panic PanicUnwrap
      | Some content =>
        match classify content with
        | None => Panic PanicIndex
        | Some VDomain => Ok (Some content)
        | Some _ => search d paths'
        end
      end
    else search d paths'
  end.

Definition reported (o : outcome (list diagnostic)) : outcome reply := obind o (fun l => Ok (Report l)).

(** request_handler.rs 92-178: the texts logged and the reply. *)
Definition answer (d : disk) (ds : documents) (uri : string) : list string * outcome reply :=
  match doc_lookup uri ds with
  | None => ([], Ok (InvalidParams uri))
  | Some document =>
    let first := "Diagnostic Request Recieved." in
    match to_file_path uri with
    | None => ([first], Panic PanicUnwrap)
    | Some path =>
      match classify document with
      | None => ([first], Panic PanicIndex)
      | Some VDomain =>
        ([first; uri ++ " is a domain. Attempting to diagnose."]%string, reported (diagnose_domain he fuel document))
      | Some VProblem =>
        match parent path with
        | None => ([first], Panic PanicUnwrap)
        | Some folder =>
          match read_dir d folder with
          | None => ([first], Panic PanicUnwrap)
          | Some paths =>
            match search d paths with
            | Ok (Some dom) =>
              if utf8_ok folder
              then ([first; folder ++ " is the domain for " ++ uri ++ ". Attempting to diagnose."]%string,
                    reported (diagnose_problem he fuel (Some dom) document))
              else ([first], Panic PanicUnwrap)
            | Ok None =>
              if utf8_ok folder
              then ([first; "Could not find the domain in " ++ folder]%string,
                    reported (diagnose_problem he fuel None document))
              else ([first], Panic PanicUnwrap)
            | Panic p => ([first], Panic p)
            | _ => ([first], OutOfFuel)
            end
          end
        end
      | Some VMaybeNotHDDL =>
        ([first; uri ++ " does not have proper HDDL header. Ignoring diagnostic request."]%string, Ok (Report []))
      end
    end
  end.

(** The reply as it is sent. *)
Definition body_of (r : reply) : body :=
  match r with Report l => Items l | InvalidParams uri => not_synced uri end.

(** One message while the server is initialized. *)
Definition serve_normal (s : service) (d : disk) (m : incoming) : list outgoing * fate :=
  let now ds := Serving (mkService (life_of s) ds) in
  match m with
  (* tower-lsp, service::layers: a second handshake is refused *)
  | Request id RInitialize => ([Respond id invalid_request], Serving s)
  (* request_handler.rs 61-63 *)
  | Request id RShutdown => ([Respond id Null], Serving (mkService ShutDown (texts s)))
  | Request id (RDiagnose uri) =>
    let (logs, r) := answer d (texts s) uri in
    match r with
    | Ok r => (map LogMessage logs ++ [Respond id (body_of r)], Serving s)
    | Panic p => (map LogMessage logs, Ended (Crashed p))
    | _ => (map LogMessage logs, Ended Hung)
    end
  (* tower-lsp, LanguageServer: the default of every request *)
  | Request id (RKnown _) => ([Respond id (method_not_found None)], Serving s)
  | Request id (RUnknown x) => ([Respond id (method_not_found (Some x))], Serving s)
  (* request_handler.rs 57-59 *)
  | Notify NInitialized => ([], Serving s)
  | Notify NExit => ([], Serving (mkService Exited (texts s)))
  (* request_handler.rs 65-90 *)
  | Notify (NOpen uri text) => ([], now (sync (texts s) uri text))
  | Notify (NSave uri (Some text)) => ([], now (sync (texts s) uri text))
  | Notify (NSave uri None) =>
    match read_file d (url_path uri) with
    | Some text => ([], now (sync (texts s) uri text))
    | None => ([], Ended (Crashed PanicUnwrap))
    end
  | Notify (NChange uri (text :: _)) => ([], now (sync (texts s) uri text))
  | Notify (NChange uri []) => ([], Serving s)
  | Notify (NOther _ _) => ([], Serving s)
  end.

(** tower-lsp, service::layers: before the handshake and after shutdown only
    these messages are let through. *)
Definition serve_closed (refusal : body) (s : service) (m : incoming) : list outgoing * fate :=
  match m with
  | Request id (RUnknown x) => ([Respond id (method_not_found (Some x))], Serving s)
  | Request id _ => ([Respond id refusal], Serving s)
  | Notify NExit => ([], Serving (mkService Exited (texts s)))
  | Notify _ => ([], Serving s)
  end.

(** One message. *)
Definition serve (s : service) (d : disk) (m : incoming) : list outgoing * fate :=
  match life_of s with
  | Uninitialized =>
    match m with
    | Request id RInitialize => ([Respond id (Capable initialize)], Serving (mkService Initialized (texts s)))
    | _ => serve_closed not_initialized s m
    end
  | Initialized => serve_normal s d m
  | ShutDown => serve_closed invalid_request s m
  | Exited => ([], Serving s)
  end.

(** All messages, each with the file system of its moment. *)
Fixpoint serve_all (s : service) (ms : list (disk * incoming)) : list outgoing * fate :=
  match ms with
  | [] => ([], Serving s)
  | (d, m) :: ms' =>
    let (out, f) := serve s d m in
    match f with
    | Serving s' => let (out', f') := serve_all s' ms' in (out ++ out', f')
    | Ended h => (out, Ended h)
    end
  end.
End Serve.

(** main.rs 6-13 and request_handler.rs 15-20. *)
Definition new_service : service := mkService Uninitialized [].
