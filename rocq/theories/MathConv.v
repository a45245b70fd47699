(** * Checked numeric conversions (util/math.cc) *)
From Coq Require Import ZArith Bool.
From Flocq Require Import IEEE754.BinarySingleNaN.
From Verif Require Import Dbl.
Local Open Scope Z_scope.

Definition int_lo : Z := - 2 ^ 31.
Definition int_hi : Z := 2 ^ 31 - 1.

(** is_integer, math.cc:29-37.  modf returns exactly v - trunc(v) as fractional part, so it is 0.0
    iff v == trunc(v). *)
Definition is_integer (v : dbl) : bool :=
  if negb (dle (dZ int_lo) v && dle v (dZ int_hi)) then false else deq v (dtrunc v).

(** convert_int64_to_int, math.cc:39-45; [None]: throws. *)
Definition convert_int64_to_int (v : Z) : option Z :=
  if (int_lo <=? v) && (v <=? int_hi) then Some v else None.

(** convert_int64_to_double, math.cc:47-56; the implicit conversion rounds to nearest. *)
Definition convert_int64_to_double (v : Z) : option dbl :=
  let m := 2 ^ 53 in
  if (- m <=? v) && (v <=? m) then Some (dZ v) else None.
