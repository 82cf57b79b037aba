(** Bytes, character classes and string helpers.

    A Rust [Vec<u8>] is modelled by a Coq [string]: a sequence of 8-bit
    [ascii] characters, i.e. of bytes.  [b as char] (u8 to char) is the
    Latin-1 embedding, so the byte itself stands for the char U+0000..U+00FF. *)
From Coq Require Import String Ascii NArith ZArith Bool List.
Import ListNotations.
Open Scope string_scope.
Open Scope N_scope.

(** Numeric value of a byte. *)
Definition code (c : ascii) : N := N_of_ascii c.

(** The newline byte. *)
Definition newline : ascii := "010"%char.
(** The horizontal tab byte. *)
Definition tab : ascii := "009"%char.
(** The carriage return byte. *)
Definition creturn : ascii := "013"%char.

(** [lo <= c <= hi] on byte values. *)
Definition in_range (lo hi : N) (c : ascii) : bool :=
  (lo <=? code c) && (code c <=? hi).

(** char::is_ascii_digit. *)
Definition is_digit (c : ascii) : bool := in_range 48 57 c.

(** [char::is_alphanumeric] of the Rust standard library on U+0000..U+00FF:
    Alphabetic (A-Z a-z, U+00AA, U+00B5, U+00BA, U+00C0..U+00FF except the
    signs U+00D7 and U+00F7) or Numeric (0-9, U+00B2, U+00B3, U+00B9,
    U+00BC..U+00BE). *)
Definition latin1_alnum_code (n : N) : bool :=
     ((48 <=? n) && (n <=? 57))
  || ((65 <=? n) && (n <=? 90))
  || ((97 <=? n) && (n <=? 122))
  || (n =? 170) || (n =? 178) || (n =? 179) || (n =? 181)
  || (n =? 185) || (n =? 186)
  || ((188 <=? n) && (n <=? 190))
  || ((192 <=? n) && (n <=? 214))
  || ((216 <=? n) && (n <=? 246))
  || ((248 <=? n) && (n <=? 255)).

Definition latin1_alnum (c : ascii) : bool := latin1_alnum_code (code c).

(** [char::is_alphanumeric] above U+00FF is an oracle: theorems hold for every
    classification of those code points. *)
Class Unicode := uni_alnum_high : N -> bool.

(** char::is_alphanumeric on an arbitrary code point. *)
Definition char_alnum `{Unicode} (cp : N) : bool :=
  if cp <? 256 then latin1_alnum_code cp else uni_alnum_high cp.

(** UTF-8 decoding, as validated by Rust's [std::str::from_utf8]
    (Unicode 15 table 3-7: no overlong forms, no surrogates, at most U+10FFFF).
    [utf8_decode] is [None] exactly when [from_utf8] is [Err]. *)
Definition cont (c : ascii) : bool := in_range 128 191 c.

Fixpoint utf8_decode (s : string) : option (list N) :=
  match s with
  | EmptyString => Some []
  | String a s1 =>
    if code a <=? 127 then option_map (cons (code a)) (utf8_decode s1)
    else match s1 with
    | EmptyString => None
    | String b s2 =>
      if in_range 194 223 a && cont b
      then option_map (cons ((code a - 192) * 64 + (code b - 128))) (utf8_decode s2)
      else match s2 with
      | EmptyString => None
      | String c s3 =>
        if ((code a =? 224) && in_range 160 191 b
            || in_range 225 236 a && cont b
            || (code a =? 237) && in_range 128 159 b
            || in_range 238 239 a && cont b) && cont c
        then option_map (cons ((code a - 224) * 4096 + (code b - 128) * 64 + (code c - 128)))
                        (utf8_decode s3)
        else match s3 with
        | EmptyString => None
        | String d s4 =>
          if ((code a =? 240) && in_range 144 191 b
              || in_range 241 243 a && cont b
              || (code a =? 244) && in_range 128 143 b) && cont c && cont d
          then option_map (cons ((code a - 240) * 262144 + (code b - 128) * 4096
                                 + (code c - 128) * 64 + (code d - 128)))
                          (utf8_decode s4)
          else None
        end
      end
    end
  end.

(** [from_utf8(..).is_ok()]. *)
Definition utf8_ok (s : string) : bool :=
  match utf8_decode s with Some _ => true | None => false end.

(** Value of a string of ASCII digits read as a decimal number (used for
    [str::parse::<i64>]). *)
Fixpoint decimal_value_acc (acc : Z) (s : string) : Z :=
  match s with
  | EmptyString => acc
  | String c s' => decimal_value_acc (acc * 10 + (Z.of_N (code c) - 48)) s'
  end.
Definition decimal_value (s : string) : Z := decimal_value_acc 0 s.

(** i64::MAX. *)
Definition i64_max : Z := 9223372036854775807%Z.

(** Lookup in an association list of string literals (models Rust [match] on
    string literals; keys are pairwise distinct). *)
Fixpoint str_assoc {A} (k : string) (l : list (string * A)) : option A :=
  match l with
  | [] => None
  | (k', v) :: l' => if String.eqb k k' then Some v else str_assoc k l'
  end.

(** Decimal rendering of a non-negative number (Rust [Display] for integers). *)
Fixpoint digits_of_fuel (fuel : nat) (n : N) (acc : string) : string :=
  match fuel with
  | O => acc
  | S f =>
    let acc' := String (ascii_of_N (48 + n mod 10)) acc in
    if n <? 10 then acc' else digits_of_fuel f (n / 10) acc'
  end.
(** At most as many digits as bits. *)
Definition show_N (n : N) : string := digits_of_fuel (S (N.to_nat (N.size n))) n "".
Definition show_Z (z : Z) : string :=
  match z with
  | Zneg p => String "-" (show_N (Npos p))
  | _ => show_N (Z.to_N z)
  end.
Definition show_nat (n : nat) : string := show_N (N.of_nat n).
