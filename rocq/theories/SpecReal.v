(** Doubles and decimal texts (specification for C81), independent of the
    algorithms of Real64.v.  A number that is not negative is a fraction [a/b];
    doubles are counted in units of 2^-1074. *)
From Coq Require Import String Ascii NArith ZArith Bool List.
From Verif Require Import Base StrFacts SpecJson.
Open Scope string_scope.
Open Scope N_scope.

(** ** Doubles (IEEE 754 binary64) *)
Definition units : N := 2 ^ 1074.
(** At most 53 significant bits, and below 2^1024. *)
Definition binary53 (u : N) : Prop := exists m s, u = m * 2 ^ s /\ m < 2 ^ 53.
Definition finite (u : N) : Prop := u < 2 ^ 1024 * units.
(** The last of the 53 bits (of the fewer bits of a number below 2^-1022) is 0. *)
Definition last_bit_zero (u : N) : Prop :=
  exists m s, u = m * 2 ^ s /\ m < 2 ^ 53 /\ (s = 0 \/ 2 ^ 52 <= m) /\ N.even m = true.

(** [b] times the distance of [a/b] and [u] units, in units. *)
Definition distance (a b u : N) : N := (a * units - u * b) + (u * b - a * units).
(** [u] is the nearest number of 53 bits; the last bit decides between two. *)
Definition nearest (a b u : N) : Prop :=
  binary53 u /\ forall w, binary53 w -> w <> u ->
    distance a b u < distance a b w \/ distance a b u = distance a b w /\ last_bit_zero u.

(** ** Decimal texts *)
(** [c * 10^p] equals [a/b]. *)
Definition decimal_is (c : N) (p : Z) (a b : N) : Prop :=
  match p with
  | Zneg k => c * b = a * 10 ^ Npos k
  | _ => c * 10 ^ Z.to_N p * b = a
  end.
Definition len (s : string) : Z := Z.of_nat (String.length s).
Definition only_digits (s : string) : Prop := str_all (fun c => is_digit c = true) s.
(** [t] is read as [c * 10^p]; in a document there may be no digit behind the dot. *)
Inductive reads : string -> N -> Z -> Prop :=
| rd_dot i f c : SpecJson.digits i -> only_digits f -> decimal_value (i ++ f) = Z.of_N c -> reads (i ++ "." ++ f) c (- len f)
| rd_dot_exponent i f x z c : SpecJson.digits i -> SpecJson.digits f -> integer_text x z -> decimal_value (i ++ f) = Z.of_N c ->
    reads (i ++ "." ++ f ++ "e" ++ x) c (z - len f)
| rd_exponent i x z c : SpecJson.digits i -> integer_text x z -> decimal_value i = Z.of_N c -> reads (i ++ "e" ++ x) c z.
(** The text [t] stands for the fraction [a/b]. *)
Definition amounts_to (t : string) (a b : N) : Prop := exists c p, reads t c p /\ decimal_is c p a b.
(** The text [t] stands for the double [u]. *)
Definition stands_for (t : string) (u : N) : Prop := exists a b, 0 < b /\ amounts_to t a b /\ nearest a b u.
