(** Real numbers: what [str::parse::<f64>] makes of a literal (tokenizer.rs 264)
    and how [Display] writes the value (token_types.rs 179-186).

    Both belong to the standard library and are modelled from its documentation:
    parsing rounds to the nearest IEEE 754 double, ties to even; writing uses the
    shortest decimal that is read back as the same double, the closest one if
    there are several, without exponent.

    The tokenizer knows no sign, so only numbers that are not negative are
    modelled.  A finite double is given by the number of units of 2^-1074, the
    smallest positive double, that it is. *)
From Coq Require Import String Ascii NArith ZArith Bool List.
From Verif Require Import Base.
Open Scope string_scope.
Open Scope N_scope.

(** Units in 1, and the first number of units beyond the finite doubles (2^1024). *)
Definition scale : N := 2 ^ 1074.
Definition beyond : N := 2 ^ 2098.

(** The digits of a literal as one number, and how many of them follow the dot
    (tokenizer.rs 251-262: the literal has digits and one dot). *)
Fixpoint literal_acc (dot : bool) (m k : N) (s : string) : N * N :=
  match s with
  | EmptyString => (m, k)
  | String c s' =>
    if is_digit c then literal_acc dot (10 * m + (code c - 48)) (if dot then k + 1 else k) s'
    else literal_acc true m k s'
  end.
Definition literal (s : string) : N * N := literal_acc false 0 0 s.

(** [a/b] rounded to a multiple of a power of two that has at most 53 bits
    (core::num::dec2flt; tokenizer.rs 264). *)
Definition round64 (a b : N) : N :=
  let x := a * scale in
  let s := N.size (x / b) - 53 in
  let den := b * 2 ^ s in
  let m := x / den in
  let r := x mod den in
  let up := match 2 * r ?= den with Lt => false | Gt => true | Eq => N.odd m end in
  (if up then m + 1 else m) * 2 ^ s.

(** [c * 10^p] as a fraction, and rounded. *)
Definition power_of_ten (p : Z) : N := 10 ^ Z.to_N p.
Definition round_decimal (c : N) (p : Z) : N :=
  round64 (c * power_of_ten p) (power_of_ten (- p)).

(** The multiple of [10^p] that is read as [u] units, if any: the one directly
    below or above, the closer one if both are (core::num::flt2dec, ryu crate d2s). *)
Definition shorten (u : N) (p : Z) : option N :=
  let n := u * power_of_ten (- p) in
  let d := scale * power_of_ten p in
  if 2 * n <? d then None
  else
    let lo := n / d in
    let r := n mod d in
    let hi := lo + 1 in
    match round_decimal lo p =? u, round_decimal hi p =? u with
    | true, true => Some (match 2 * r ?= d with Lt => lo | Gt => hi | Eq => if N.odd lo then hi else lo end)
    | true, false => Some lo
    | false, true => Some hi
    | false, false => None
    end.
(** As few digits as possible: the largest power of ten.  No finite double is
    near a multiple of 10^309, and all are multiples of 10^-1074. *)
Fixpoint shortest_from (fuel : nat) (u : N) (p : Z) : N * Z :=
  match fuel with
  | O => (u * 5 ^ 1074, (-1074)%Z)
  | S f => match shorten u p with Some c => (c, p) | None => shortest_from f u (p - 1) end
  end.
Definition shortest (u : N) : N * Z := shortest_from (N.to_nat 1384) u 309.

(** The value of a literal. *)
Definition double (l : string) : N := round64 (fst (literal l)) (10 ^ snd (literal l)).

Fixpoint zeros (n : nat) : string :=
  match n with O => EmptyString | S n' => String "0" (zeros n') end.
(** [c * 10^p] without exponent (core::fmt::float, digits_to_dec_str). *)
Definition positional (c : N) (p : Z) : string :=
  let ds := show_N c in
  let len := String.length ds in
  let kk := (Z.of_nat len + p)%Z in
  if (0 <=? p)%Z then ds ++ zeros (Z.to_nat p)
  else if (0 <? kk)%Z then substring 0 (Z.to_nat kk) ds ++ "." ++ substring (Z.to_nat kk) (len - Z.to_nat kk) ds
  else "0." ++ zeros (Z.to_nat (- kk)) ++ ds.
(** [{}] of the value of a literal. *)
Definition display64 (l : string) : string :=
  let u := double l in
  if beyond <=? u then "inf"
  else if u =? 0 then "0"
  else positional (fst (shortest u)) (snd (shortest u)).
