(** * IEEE-754 binary64 numbers as used by dReal for every [double].

    The C++ code stores every bound, constant and option value as a [double].
    We use Flocq's [BinarySingleNaN] binary64 (one NaN, signed zeros, subnormals,
    infinities), so comparisons, [nextafter], rounding and casts are exact models
    of the C++ operators under the default rounding mode (round to nearest even). *)
From Coq Require Import ZArith Reals Lra Lia Bool.
From Flocq Require Import Core.Core IEEE754.BinarySingleNaN.

Definition prec64 : Z := 53.
Definition emax64 : Z := 1024.
Lemma prec64_gt_0 : FLX.Prec_gt_0 prec64. Proof. reflexivity. Qed.
Lemma prec64_lt_emax : Prec_lt_emax prec64 emax64. Proof. reflexivity. Qed.
#[global] Existing Instance prec64_gt_0.
#[global] Existing Instance prec64_lt_emax.

(** [double] *)
Definition dbl : Type := binary_float prec64 emax64.

Definition dnan : dbl := B754_nan.
Definition dpinf : dbl := B754_infinity false.   (* +std::numeric_limits<double>::infinity() *)
Definition dninf : dbl := B754_infinity true.    (* -infinity *)
Definition dzero : dbl := B754_zero false.
Definition dmax : dbl := Bmax_float.   (* numeric_limits<double>::max() *)

(** The double nearest to [m * 2^e]; used to write literals. *)
Definition mkd (m e : Z) : dbl := binary_normalize prec64 emax64 _ _ mode_NE m e false.
Definition dZ (m : Z) : dbl := mkd m 0.
Definition dmin_normal : dbl := mkd 1 (-1022).   (* numeric_limits<double>::min(): smallest positive NORMAL *)

(** C++ comparison operators on doubles (false on NaN). *)
Definition dlt (x y : dbl) : bool := Bltb x y.
Definition dle (x y : dbl) : bool := Bleb x y.
Definition deq (x y : dbl) : bool := Beqb x y.
Definition dgt (x y : dbl) : bool := Bltb y x.
Definition dge (x y : dbl) : bool := Bleb y x.

(** Arithmetic in the default rounding mode. *)
Definition dadd (x y : dbl) : dbl := Bplus mode_NE x y.
Definition dsub (x y : dbl) : dbl := Bminus mode_NE x y.
Definition dmul (x y : dbl) : dbl := Bmult mode_NE x y.
Definition ddiv (x y : dbl) : dbl := Bdiv mode_NE x y.
Definition dopp (x : dbl) : dbl := Bopp x.
Definition dabs (x : dbl) : dbl := Babs x.
Definition dceil (x : dbl) : dbl := Bnearbyint mode_UP x.      (* std::ceil *)
Definition dfloor (x : dbl) : dbl := Bnearbyint mode_DN x.     (* std::floor *)
Definition dtrunc (x : dbl) : dbl := Bnearbyint mode_ZR x.     (* integral part of std::modf *)

(** C99/C++ [std::nextafter(x, y)]. *)
Definition dnextafter (x y : dbl) : dbl :=
  if is_nan x || is_nan y then dnan
  else if deq x y then y
  else if dlt x y then Bsucc x else Bpred x.

Definition dreal_of (x : dbl) : R := B2R x.

(** Extended reals, used to speak about a double together with its infinities. *)
Inductive ext : Type := NInf | Fin (r : R) | PInf.

Definition ext_le (a b : ext) : Prop :=
  match a, b with
  | NInf, _ => True
  | _, PInf => True
  | Fin x, Fin y => (x <= y)%R
  | _, _ => False
  end.

Definition ext_lt (a b : ext) : Prop := ~ ext_le b a.

Definition d2e (x : dbl) : ext :=
  match x with
  | B754_infinity true => NInf
  | B754_infinity false => PInf
  | _ => Fin (B2R x)
  end.
