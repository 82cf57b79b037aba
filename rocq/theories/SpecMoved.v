(** Where lines go when text is inserted (specification for C42). *)
From Coq Require Import NArith.

(** [by_lines] line breaks are inserted on line [at_line]: nothing moves before
    them, and everything moves by their number behind them. *)
Definition moved (at_line by_lines x y : N) : Prop :=
  (x <= at_line /\ y = x \/ at_line <= x /\ y = x + by_lines)%N.
