(** Command lines as their users write them (C79). *)
From Coq Require Import String Ascii NArith Bool List.
From Verif Require Import Base Args.
Import ListNotations.
Open Scope string_scope.
Open Scope list_scope.

Definition name_of_sub (s : subcommand) : string :=
  match s with SubVerify => "verify" | SubMetadata => "metadata" | SubSerialize => "to_json" end.
(** The two options with their letters and names. *)
Inductive option_names : key -> string -> string -> Prop :=
| on_problem : option_names KProblem "-p" "--problem-path"
| on_output : option_names KOutput "-o" "--output-file".

(** Not taken for an option. *)
Definition ordinary (v : string) : Prop := v = "-" \/ forall r, v <> String "-" r.

(** The ways to write one piece of a command line. *)
Inductive spelled : key * string -> list string -> Prop :=
| sp_domain d : ordinary d -> spelled (KDomain, d) [d]
| sp_apart k l n v : option_names k l n -> ordinary v -> spelled (k, v) [l; v]
| sp_apart_long k l n v : option_names k l n -> ordinary v -> spelled (k, v) [n; v]
| sp_glued k l n v : option_names k l n -> v <> "" -> (forall r, v <> String "=" r) -> spelled (k, v) [l ++ v]%string
| sp_equals k l n v : option_names k l n -> spelled (k, v) [l ++ "=" ++ v]%string
| sp_equals_long k l n v : option_names k l n -> spelled (k, v) [n ++ "=" ++ v]%string.

(** The arguments of a subcommand: pieces in any order; the domain may come last, after [--]. *)
Inductive written : list (key * string) -> list string -> Prop :=
| wr_end : written [] []
| wr_dashes : written [] ["--"]
| wr_domain d : written [(KDomain, d)] ["--"; d]
| wr_piece x ps ws args : spelled x ws -> written ps args -> written (x :: ps) (ws ++ args).

Fixpoint values (k : key) (ps : list (key * string)) : list string :=
  match ps with
  | [] => []
  | (k', v) :: ps' => if same_key k k' then v :: values k ps' else values k ps'
  end.
Definition as_list (o : option string) : list string := match o with Some v => [v] | None => [] end.

(** The pieces give the domain once and every option at most once. *)
Definition gives (ps : list (key * string)) (d : string) (p o : option string) : Prop :=
  values KDomain ps = [d] /\ values KProblem ps = as_list p /\ values KOutput ps = as_list o
  /\ forall k v, In (k, v) ps -> utf8_ok v = true.
Definition means (args : list string) (s : subcommand) (d : string) (p o : option string) : Prop :=
  exists ps rest, args = name_of_sub s :: rest /\ written ps rest /\ gives ps d p o.

(** Asking for help: at any place where an option can stand, if all is well before it. *)
Definition help_flag (h : string) : Prop := h = "--help" \/ exists r, h = ("-h" ++ r)%string.
Inductive laid_out : list (key * string) -> list string -> Prop :=
| lo_end : laid_out [] []
| lo_piece x ps ws args : spelled x ws -> laid_out ps args -> laid_out (x :: ps) (ws ++ args).
Definition no_repetition (ps : list (key * string)) : Prop :=
  (forall k, length (values k ps) <= 1)%nat /\ forall k v, In (k, v) ps -> utf8_ok v = true.
Definition asks_for_help (args : list string) : Prop :=
  args = ["help"] \/ args = ["help"; "help"] \/ (exists s, args = ["help"; name_of_sub s])
  \/ (exists h rest, args = h :: rest /\ help_flag h)
  \/ exists s ps ws h rest, args = name_of_sub s :: ws ++ h :: rest /\ laid_out ps ws /\ no_repetition ps /\ help_flag h.
