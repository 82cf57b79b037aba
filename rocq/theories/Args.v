(** The command line of hddl_analyzer: src/bin/hddl_analyzer/cli_args.rs, read by
    clap 4.5 (modelled from its documentation: its derive attributes, the
    argument syntax, [ArgAction::Set] and [ArgAction::Help]), and the process around [Cli.main].  The texts
    of usage errors and of the help are not modelled. *)
From Coq Require Import String Ascii NArith Bool List.
From Verif Require Import Base Token Lexer Errors Ast Parser Semantic Tdg Api Json Cli.
Import ListNotations.
Open Scope string_scope.
Open Scope list_scope.

(** cli_args.rs 10-15. *)
Inductive subcommand := SubVerify | SubMetadata | SubSerialize.
(** cli_args.rs 18-24: the arguments of every subcommand. *)
Inductive key := KDomain | KProblem | KOutput.
Definition same_key (a b : key) : bool :=
  match a, b with
  | KDomain, KDomain | KProblem, KProblem | KOutput, KOutput => true
  | _, _ => false
  end.

(** clap's result: the help (exit status 0), a usage error (exit status 2) or
    the arguments. *)
Inductive parsed :=
| Help
| Usage
| Parsed (s : subcommand) (domain : string) (problem output : option string).

(** The arguments seen so far. *)
Definition given := key -> option string.
Definition none_given : given := fun _ => None.
(** [ArgAction::Set]: an argument may be given once; a [String] must be UTF-8. *)
Definition set (k : key) (v : string) (g : given) : option given :=
  match g k with
  | Some _ => None
  | None => if utf8_ok v then Some (fun k' => if same_key k k' then Some v else g k') else None
  end.

(** clap_lex: [--name] or [--name=value]. *)
Fixpoint split_eq (s : string) : string * option string :=
  match s with
  | "" => ("", None)
  | String c s' =>
    if Ascii.eqb c "=" then ("", Some s')
    else let (n, v) := split_eq s' in (String c n, v)
  end.
(** cli_args.rs 20-23: [long] gives the name of the field with hyphens. *)
Definition long_key (name : string) : option key :=
  if String.eqb name "problem-path" then Some KProblem
  else if String.eqb name "output-file" then Some KOutput
  else None.
(** cli_args.rs 20-23: [short] gives the first letter of the field. *)
Definition short_key (c : ascii) : option key :=
  if Ascii.eqb c "p" then Some KProblem
  else if Ascii.eqb c "o" then Some KOutput
  else None.
(** The value written in the same argument as a letter. *)
Definition attached (s : string) : option string :=
  match s with
  | "" => None
  | String c s' => Some (if Ascii.eqb c "=" then s' else s)
  end.

Inductive argument :=
| Escape                             (* -- *)
| Long (name : string) (value : option string)
| Short (letter : ascii) (rest : string)
| Plain (s : string).
Definition argument_of (a : string) : argument :=
  match a with
  | String "-" (String "-" "") => Escape
  | String "-" (String "-" s) => let (n, v) := split_eq s in Long n v
  | String "-" (String c s) => Short c s
  | _ => Plain a
  end.

(** clap's parser below a subcommand.  [waiting]: the option whose value comes
    next; [trailing]: after [--]. *)
Fixpoint parse_args (s : subcommand) (args : list string) (waiting : option key) (trailing : bool) (g : given) : parsed :=
  match args with
  | [] =>
    match waiting, g KDomain with
    | None, Some d => Parsed s d (g KProblem) (g KOutput)
    | _, _ => Usage
    end
  | a :: args' =>
    let put k v := match set k v g with Some g' => parse_args s args' None trailing g' | None => Usage end in
    if trailing then
      match waiting with None => put KDomain a | Some _ => Usage end
    else
      match argument_of a, waiting with
      | Plain v, Some k => put k v
      | Plain v, None => put KDomain v
      | _, Some _ => Usage
      | Escape, None => parse_args s args' None true g
      | Long n v, None =>
        match long_key n, v with
        | Some k, Some v => put k v
        | Some k, None => parse_args s args' (Some k) false g
        | None, None => if String.eqb n "help" then Help else Usage
        | None, Some _ => Usage
        end
      | Short c r, None =>
        match short_key c with
        | Some k =>
          match attached r with
          | Some v => put k v
          | None => parse_args s args' (Some k) false g
          end
        | None => if Ascii.eqb c "h" then Help else Usage
        end
      end
  end.

(** cli_args.rs 10-15: the names of the subcommands. *)
Definition subcommand_of (a : string) : option subcommand :=
  if String.eqb a "verify" then Some SubVerify
  else if String.eqb a "metadata" then Some SubMetadata
  else if String.eqb a "to_json" then Some SubSerialize
  else None.

(** cli_args.rs 3-7: one subcommand is required; clap adds [help] and [-h].  The
    name of the program is not among [args]. *)
Definition parse_line (args : list string) : parsed :=
  match args with
  | [] => Usage
  | a :: args' =>
    match subcommand_of a with
    | Some s => parse_args s args' None false none_given
    | None =>
      if String.eqb a "help" then
        match args' with
        | [] => Help
        | [b] => match subcommand_of b with Some _ => Help | None => if String.eqb b "help" then Help else Usage end
        | _ => Usage
        end
      else
        match argument_of a with
        | Long n None => if String.eqb n "help" then Help else Usage
        | Short c _ => if Ascii.eqb c "h" then Help else Usage
        | _ => Usage
        end
    end
  end.

(** ** The process *)
(** Reading a file, the current folder if it exists, the [Debug] text of a path, and the error
    of writing to a path, if any. *)
Record system := mkSystem {
  reads_as : string -> file;
  current_dir : option string;
  quoted : string -> string;
  write_error : string -> option string
}.
(** [PathBuf::push] on Unix. *)
Definition push (dir name : string) : string :=
  match name with
  | String "/" _ => name
  | _ =>
    match String.get (String.length dir - 1) dir with
    | Some "/"%char => dir ++ name
    | _ => dir ++ "/" ++ name
    end
  end%string.
(** main.rs 94-110 and 128-143. *)
Definition destination_of (sys : system) (o : option string) : destination :=
  match o with
  | None => ToStdout
  | Some name =>
    match current_dir sys with
    | None => NoCurrentDir
    | Some dir => ToFile name (quoted sys (push dir name)) (write_error sys (push dir name))
    end
  end.

(** main.rs 20, 36-40, 83-87: the files read, in order: the problem only after the domain. *)
Definition files_read (sys : system) (s : subcommand) (d : string) (p : option string) : list string :=
  match s, p, reads_as sys d with
  | SubMetadata, _, _ => [d]
  | _, Some p, Content _ => [d; p]
  | _, _, _ => [d]
  end.
(** main.rs 17-18. *)
Definition command_of (sys : system) (s : subcommand) (d : string) (p o : option string) : command :=
  let read := reads_as sys in
  match s with
  | SubVerify => CmdVerify (read d) (option_map read p)
  | SubMetadata => CmdMetadata (read d)
  | SubSerialize => CmdSerialize (read d) (option_map read p) (destination_of sys o)
  end.

(** What the process does: the files it reads and the rest. *)
Definition process `{Unicode} `{Floats} (he : hash_env) (swap : bool) (fuel lfuel : nat) (sys : system)
  (args : list string) : list string * run :=
  match parse_line args with
  | Help => ([], Exit [] 0)
  | Usage => ([], Exit [] 2)
  | Parsed s d p o => (files_read sys s d p, main he swap fuel lfuel (command_of sys s d p o))
  end.
