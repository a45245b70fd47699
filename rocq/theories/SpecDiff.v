(** * Specification: points where a differentiation rule applies *)
From Coq Require Import ZArith Reals List Bool.
From Flocq Require Import IEEE754.BinarySingleNaN.
From Verif Require Import Dbl Syntax Sem StdInterp Diff.
Import ListNotations.
Local Open Scope R_scope.

(** [rho] with the value of [x] changed to [z] *)
Definition at_x (rho : env) (x : var) (z : R) : env := fun v => if var_eqb x v then z else rho v.

(** The power [f^g] at values [a], [b]: positive base; or a constant integer exponent and a base that is not
    zero or an exponent of at least 1.  [c]: the exponent is a numeric constant. *)
Definition pow_smooth (c : bool) (a b : R) : Prop := 0 < a \/ (c = true /\ isint b /\ (a <> 0 \/ 1 <= b)).

(** The operation [o] has a derivative at [a] *)
Definition un_smooth (o : unop) (a : R) : Prop :=
  match o with
  | ULog | USqrt => 0 < a
  | UTan => cos a <> 0
  | UAsin | UAcos => -1 < a < 1
  | UAbs => False
  | _ => True
  end.

Section Smooth.
  Variables (M : interp) (x : var).
  (** No factor of a product is zero; atan2 is away from its cut; |.|, min, max, if-then-else and uninterpreted
      functions do not depend on [x]. *)
  Fixpoint smooth (e : expr) (rho : env) : Prop :=
    match e with
    | EConst _ | EReal _ _ _ | EVar _ => True
    | EAdd _ ts => fold_right (fun p acc => match p with (a, _) => smooth a rho /\ acc end) True ts
    | EMul _ ts => fold_right (fun p acc => match p with (b, g) =>
                     (smooth b rho /\ smooth g rho /\ evalE M b rho <> 0 /\ pow_smooth (isc g) (evalE M b rho) (evalE M g rho)) /\ acc end) True ts
    | EUn UAbs _ | EBin BMin _ _ | EBin BMax _ _ | EIte _ _ _ | EUf _ _ => ~ In x (fvE e)
    | EUn o a => smooth a rho /\ un_smooth o (evalE M a rho)
    | EBin BDiv f g => smooth f rho /\ smooth g rho /\ evalE M g rho <> 0
    | EBin BPow f g => smooth f rho /\ smooth g rho /\ pow_smooth (isc g) (evalE M f rho) (evalE M g rho)
    | EBin BAtan2 f g => smooth f rho /\ smooth g rho /\ (0 < evalE M g rho \/ evalE M f rho <> 0)
    end.
End Smooth.
