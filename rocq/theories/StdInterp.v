(** * The standard interpretation

    The real functions that the operators are meant to denote, and where they are defined.  Theorems
    quantify over every interpretation; this one is used to state examples and the theorems about
    particular functions. *)
From Coq Require Import ZArith Reals Lra List Bool ClassicalDescription.
From Flocq Require Import IEEE754.BinarySingleNaN.
From Verif Require Import Dbl DblProofs Syntax Sem IEval.
Import ListNotations.
Local Open Scope R_scope.

Definition dec (P : Prop) : bool := if excluded_middle_informative P then true else false.

(** x ^ y: repeated multiplication for integer y, exp (y ln x) for positive x, 0 for 0 ^ y (y > 0). *)
Definition powR (x y : R) : R :=
  if dec (isint y) then powerRZ x (Int_part y)
  else if dec (x = 0) then 0 else Rpower x y.
Definition pow_def (x y : R) : Prop := 0 < x \/ (x = 0 /\ 0 <= y) \/ (x < 0 /\ isint y).

(** atan2(y, x) *)
Definition atan2R (y x : R) : R :=
  if dec (0 < x) then atan (y / x)
  else if dec (x < 0) then (if dec (0 <= y) then atan (y / x) + PI else atan (y / x) - PI)
  else if dec (0 < y) then PI / 2 else if dec (y < 0) then - (PI / 2) else 0.

Definition unR (o : unop) (x : R) : R :=
  match o with
  | ULog => ln x | UAbs => Rabs x | UExp => exp x | USqrt => sqrt x
  | USin => sin x | UCos => cos x | UTan => tan x
  | UAsin => asin x | UAcos => acos x | UAtan => atan x
  | USinh => sinh x | UCosh => cosh x | UTanh => tanh x
  end.
Definition un_def (o : unop) (x : R) : Prop :=
  match o with
  | ULog => 0 < x
  | USqrt => 0 <= x
  | UTan => cos x <> 0
  | UAsin | UAcos => -1 <= x <= 1
  | _ => True
  end.
Definition binR (o : binop) (x y : R) : R :=
  match o with
  | BDiv => x / y | BPow => powR x y | BAtan2 => atan2R x y | BMin => Rmin x y | BMax => Rmax x y
  end.
Definition bin_def (o : binop) (x y : R) : Prop :=
  match o with
  | BDiv => y <> 0
  | BPow => pow_def x y
  | BAtan2 => ~ (x = 0 /\ y = 0)
  | _ => True
  end.
(** Uninterpreted functions denote [uf]; a decimal literal denotes [rc] of its enclosure. *)
Definition std (uf : nat -> list R -> R) (rc : dbl -> dbl -> R) : interp :=
  {| i_un := unR; i_bin := binR; i_uf := uf; i_rc := rc |}.
Definition stdD : pdom := {| d_un := un_def; d_bin := bin_def |}.
Definition Mstd : interp := std (fun _ _ => 0) (fun lb _ => B2R lb).
