(** The command line tool: src/bin/hddl_analyzer.  Argument parsing is in
    Args.v; the model starts from the parsed command and the result of
    reading the files ([None]: reading failed with the given message). *)
From Coq Require Import String Ascii NArith Bool List.
From Verif Require Import Base Token Lexer Errors Ast Parser Semantic Tdg Api Json.
Import ListNotations.
Open Scope string_scope.
Open Scope list_scope.

(** Result of fs::read: content or the text of the I/O error. *)
Inductive file := Content (bytes : string) | ReadError (message : string).

(** Where to_json writes: no output file; an output file with its name, the
    Debug text of its absolute path and the text of the error if writing fails;
    or an output file while the current directory cannot be determined. *)
Inductive destination :=
| ToStdout
| ToFile (name path : string) (error : option string)
| NoCurrentDir.

(** cli_args.rs 10-25, after clap. *)
Inductive command :=
| CmdVerify (domain : file) (problem : option file)
| CmdMetadata (domain : file)
| CmdSerialize (domain : file) (problem : option file) (output : destination).

(** An observable effect: text printed to stdout or stderr, or a file written. *)
Inductive printed := Stdout (s : string) | Stderr (s : string) | Written (name content : string).

(** Behaviour of a run: what is printed and the exit status, or a panic
    (exit status 101), or non-termination. *)
Inductive run := Exit (out : list printed) (status : N) | Crash | Hang.

(** main.rs 11-15: ANSI colours. *)
Definition esc : string := String (ascii_of_N 27) "".
Definition yellow : string := esc ++ "[33m".
Definition green : string := esc ++ "[32m".
Definition red : string := esc ++ "[31m".
Definition reset : string := esc ++ "[0m".

Definition error_line (msg : string) : printed := Stderr (red ++ "[Error]" ++ reset ++ " " ++ msg).
Definition warning_line (w : warning) : printed :=
  Stdout (yellow ++ "[Warning]" ++ reset ++ " " ++ show_warning w).
Definition ok_line : printed := Stdout (green ++ "[Ok]" ++ reset).

(** main.rs 52-54 / 71-73: eprintln!("{}", parsing_error); rendering may
    panic. *)
Definition print_error (e : parsing_error) : run :=
  match show_parsing_error e with
  | Some msg => Exit [error_line msg] 0
  | None => Crash
  end.

(** metadata.rs 41-50. *)
Fixpoint show_cycle (c : list (string * string)) : string :=
  match c with
  | [] => ""
  | [(t, _)] => "[" ++ t ++ "]"
  | (t, m) :: c' => "[" ++ t ++ "]-(" ++ m ++ ")->" ++ show_cycle c'
  end.

Definition nl : string := String newline "".
Definition tb : string := String tab "".

(** metadata.rs 12-38. *)
Definition show_recursion (r : recursion) : string :=
  match r with
  | NonRecursive => "Non-recursive"
  | Recursive c => "Recursive" ++ nl ++ tb ++ "Cycle: " ++ show_cycle c
  | EmptyRecursion c => "Empty recursion" ++ nl ++ tb ++ "Cycle: " ++ show_cycle c
  | GrowingEmptyPrefix c =>
    "Growing empty prefix recursion" ++ nl ++ tb ++ "Cycle: " ++ show_cycle c
  | GrowAndShrink c => "Grow and shrink recursion" ++ nl ++ tb ++ "Cycle: " ++ show_cycle c
  end%string.

(** metadata.rs 62-79. *)
Definition show_metadata (m : metadata) : string :=
  ("Description" ++ nl
  ++ tb ++ "Hierarchy type: " ++ show_recursion (md_recursion m) ++ nl
  ++ match md_nullables m with
     | [] => tb ++ "Nullable Tasks: None" ++ nl
     | l => tb ++ "Nullable Tasks:" ++ nl
            ++ String.concat "" (map (fun n => tb ++ tb ++ n ++ nl) l)
     end
  ++ tb ++ "Number of actions: " ++ show_nat (md_actions m) ++ nl
  ++ tb ++ "Number of abstract tasks: " ++ show_nat (md_tasks m) ++ nl
  ++ tb ++ "Number of methods: " ++ show_nat (md_methods m) ++ nl)%string.

Section Cli.
Context `{Unicode} `{Floats}.
Variable he : hash_env.
(** Iteration order of the root map of to_json. *)
Variable swap : bool.

(** main.rs 45-55 / 64-74. *)
Definition print_verification (r : outcome (list warning)) : run :=
  match r with
  | Ok ws => Exit (map warning_line ws ++ [ok_line]) 0
  | Err e => print_error e
  | Panic _ => Crash
  | OutOfFuel => Hang
  end.

(** main.rs 93-115 / 131-150: the two messages after writing a file differ. *)
Definition print_json (with_problem : bool) (output : destination) (r : outcome string) : run :=
  match r with
  | Ok text =>
    match output with
    | ToStdout => Exit [ok_line; Stdout text] 0
    | ToFile _ _ (Some msg) => Exit [error_line msg] 0
    | ToFile name path None =>
      Exit [Written name text;
            Stdout (if with_problem then path else "Result successfully written to " ++ name)] 0
    | NoCurrentDir => Crash
    end
  | Err e => print_error e
  | Panic _ => Crash
  | OutOfFuel => Hang
  end.

(** main.rs 9-159.  The process never calls std::process::exit, so a run that
    does not panic has exit status 0. *)
Definition main (fuel lfuel : nat) (c : command) : run :=
  match c with
  | CmdMetadata (ReadError msg) => Exit [error_line msg] 0
  | CmdMetadata (Content d) =>
    match get_metadata he fuel lfuel d with
    | Ok m => Exit [Stdout (show_metadata m)] 0
    | Err e => print_error e
    | Panic _ => Crash
    | OutOfFuel => Hang
    end
  | CmdVerify (ReadError msg) _ => Exit [error_line msg] 0
  | CmdVerify (Content d) (Some (ReadError msg)) => Exit [error_line msg] 0
  | CmdVerify (Content d) (Some (Content p)) => print_verification (verify he fuel d (Some p))
  | CmdVerify (Content d) None => print_verification (verify he fuel d None)
  | CmdSerialize (ReadError msg) _ _ => Exit [error_line msg] 0
  | CmdSerialize (Content d) (Some (ReadError msg)) _ => Exit [error_line msg] 0
  | CmdSerialize (Content d) (Some (Content p)) o =>
    print_json true o (to_json swap fuel d (Some p))
  | CmdSerialize (Content d) None o => print_json false o (to_json swap fuel d None)
  end.

End Cli.
