(** Real numbers in the export: what serde_json writes for the value of a literal
    (token_types.rs 172-177), the value being that of Double.v.

    Modelled from the documentation: serde_json writes the shortest decimal that
    is read back as the same double, the closest one if there are several, in the
    layout of the ryu crate. *)
From Coq Require Import String Ascii NArith ZArith Bool List.
From Verif Require Import Base Json.
From Verif Require Export Double.
Open Scope string_scope.
Open Scope N_scope.

(** The layout of the digits [c] of [c * 10^p] (ryu crate, pretty::format64). *)
Definition layout (c : N) (p : Z) : string :=
  let ds := show_N c in
  let len := String.length ds in
  let kk := (Z.of_nat len + p)%Z in
  if ((0 <=? p) && (kk <=? 16))%Z then ds ++ zeros (Z.to_nat p) ++ ".0"
  else if ((0 <? kk) && (kk <=? 16))%Z then
    substring 0 (Z.to_nat kk) ds ++ "." ++ substring (Z.to_nat kk) (len - Z.to_nat kk) ds
  else if ((-5 <? kk) && (kk <=? 0))%Z then "0." ++ zeros (Z.to_nat (- kk)) ++ ds
  else if Nat.eqb len 1 then ds ++ "e" ++ show_Z (kk - 1)
  else substring 0 1 ds ++ "." ++ substring 1 (len - 1) ds ++ "e" ++ show_Z (kk - 1).

(** What is written for a literal: serde_json writes `null` for an infinite value. *)
Definition double_text (u : N) : string :=
  if beyond <=? u then "null"
  else if u =? 0 then "0.0"
  else layout (fst (shortest u)) (snd (shortest u)).
Definition ieee : Floats := {| f64_text := fun l => double_text (double l) |}.
