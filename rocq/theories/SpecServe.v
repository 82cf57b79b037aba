(** Specifications for a whole session with the language server (C77). *)
From Coq Require Import String NArith ZArith Bool List.
From Verif Require Import Base Token Lexer Errors Ast Parser Semantic Tdg Api Lsp SpecIo Conc Serve.
Import ListNotations.
Open Scope string_scope.
Open Scope list_scope.

(** Identifiers of the requests received and of the responses sent. *)
Fixpoint asked (ms : list (disk * incoming)) : list nat :=
  match ms with
  | [] => []
  | (_, Request id _) :: ms' => id :: asked ms'
  | _ :: ms' => asked ms'
  end.
Fixpoint responded (out : list outgoing) : list nat :=
  match out with
  | [] => []
  | Respond id _ :: out' => id :: responded out'
  | _ :: out' => responded out'
  end.

(** Neither starts nor ends a session. *)
Definition idle (m : incoming) : Prop :=
  match m with Request _ RInitialize | Notify NExit => False | _ => True end.
(** The response refuses its request with this code, or the method is unknown. *)
Definition refuses (code : Z) (o : outgoing) : Prop :=
  exists id c text data, o = Respond id (Failure c text data) /\ (c = code \/ c = -32601)%Z.

(** What happens in an editor: a document is opened, gets a new text, is saved,
    is closed, is to be checked. *)
Inductive edit :=
| EOpen (uri text : string)
| EEdit (uri text : string)
| ESave (uri : string)
| EClose (uri : string)
| ECheck (uri : string).
(** The text the editor shows for a document. *)
Definition after (uri : string) (old : option string) (e : edit) : option string :=
  match e with
  | EOpen u text | EEdit u text => if String.eqb u uri then Some text else old
  | EClose u => if String.eqb u uri then None else old
  | _ => old
  end.
Definition shown (uri : string) (es : list edit) : option string := fold_left (after uri) es None.

Definition concerns (e : edit) : string :=
  match e with EOpen u _ | EEdit u _ | ESave u | EClose u | ECheck u => u end.

(** The message an editor sends, with the file system at that moment, when it
    follows the capabilities: whole texts, one change at a time; a save carries
    the text, or the file has it. *)
Inductive tells (es : list edit) (d : disk) : edit -> incoming -> Prop :=
| tl_open u text : tells es d (EOpen u text) (Notify (NOpen u text))
| tl_edit u text : tells es d (EEdit u text) (Notify (NChange u [text]))
| tl_save_text u text : shown u es = Some text -> tells es d (ESave u) (Notify (NSave u (Some text)))
| tl_save u text : shown u es = Some text -> read_file d (url_path u) = Some text ->
    tells es d (ESave u) (Notify (NSave u None))
| tl_close u : tells es d (EClose u) (Notify (NOther "textDocument/didClose" u))
| tl_check id u : tells es d (ECheck u) (Request id (RDiagnose u)).
(** Messages that are not about documents. *)
Definition about_nothing (m : incoming) : Prop :=
  match m with
  | Request _ (RKnown _ | RUnknown _ | RInitialize) | Notify (NInitialized | NOther _ _) => True
  | _ => False
  end.
(** The messages of an editing session. *)
Inductive edited : list edit -> list (disk * incoming) -> Prop :=
| ed_none : edited [] []
| ed_edit es ms e d m : edited es ms -> tells es d e m -> edited (es ++ [e]) (ms ++ [(d, m)])
| ed_other es ms d m : edited es ms -> about_nothing m -> edited es (ms ++ [(d, m)]).

Section Folder.
Context `{Unicode}.
(** [dir] is what is looked at in the folder of [uri]: a beginning of its
    listing, and the whole of it unless it ends in a domain. *)
Definition in_folder (d : disk) (uri : string) (dir : list dir_entry) : Prop :=
  exists path folder seen unseen,
    to_file_path uri = Some path /\ parent path = Some folder /\ read_dir d folder = Some (seen ++ unseen)
    /\ Forall2 (fun p e => fst e = known_extension p /\ (fst e = true -> read_file d p = Some (snd e))) seen dir
    /\ (unseen = [] \/ exists before dom, dir = before ++ [(true, dom)] /\ classify dom = Some VDomain).
End Folder.
