(** UTF-8 as an encoding of Unicode characters, and the characters that names
    may contain (specification for C75). *)
From Coq Require Import String Ascii NArith Bool List.
From Verif Require Import Base.
Import ListNotations.
Open Scope string_scope.
Open Scope N_scope.

(** Characters: code points up to U+10FFFF that are not surrogates. *)
Definition scalar (cp : N) : Prop := cp < 55296 \/ 57344 <= cp < 1114112.
Definition byte (n : N) : string := String (ascii_of_N n) "".
(** The shortest of the four forms; six bits of the number in every byte but the first. *)
Definition encode (cp : N) : string :=
  if cp <? 128 then byte cp
  else if cp <? 2048 then byte (192 + cp / 64) ++ byte (128 + cp mod 64)
  else if cp <? 65536 then byte (224 + cp / 4096) ++ byte (128 + cp / 64 mod 64) ++ byte (128 + cp mod 64)
  else byte (240 + cp / 262144) ++ byte (128 + cp / 4096 mod 64) ++ byte (128 + cp / 64 mod 64) ++ byte (128 + cp mod 64).
Fixpoint encode_all (cps : list N) : string :=
  match cps with [] => "" | cp :: l => encode cp ++ encode_all l end.
(** [s] is a UTF-8 text. *)
Definition text (s : string) : Prop := exists cps, Forall scalar cps /\ s = encode_all cps.

(** The bytes above 127 that are letters or digits when read as Latin-1
    characters: the letters ª µ º, the digits ² ³ ¹ ¼ ½ ¾, and À to ÿ without × and ÷. *)
Definition lucky (n : N) : Prop := In n [170; 181; 186; 178; 179; 185; 188; 189; 190] \/ 192 <= n <= 255 /\ n <> 215 /\ n <> 247.
(** The characters that can be used in names: those that are letters or digits
    (or '_' or '-') and whose encoding consists of such bytes. *)
Definition usable `{Unicode} (cp : N) : Prop :=
  48 <= cp <= 57 \/ 65 <= cp <= 90 \/ 97 <= cp <= 122 \/ cp = 95 \/ cp = 45
  \/ 128 <= cp /\ (cp < 256 -> lucky cp) /\ (256 <= cp -> uni_alnum_high cp = true)
     /\ forall c, In c (list_ascii_of_string (encode cp)) -> lucky (N_of_ascii c).
