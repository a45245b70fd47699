(** * Specification vocabulary for the refinement of counterexamples (C52) *)
From Coq Require Import ZArith Reals List Bool.
From Flocq Require Import IEEE754.BinarySingleNaN.
From Verif Require Import Dbl Syntax Sem Interval IEval Filter Refiner.
Import ListNotations.
Local Open Scope R_scope.

(** The points an optimisation problem admits: inside the bounds, every constraint met *)
Definition feasible (M : interp) (p : nlprob) (rho : env) : Prop :=
  in_box rho (nl_box p) /\ forall eq c, In (eq, c) (nl_cons p) -> if eq : bool then evalE M c rho = 0 else evalE M c rho <= 0.
(** The value the optimiser minimises *)
Definition objective (M : interp) (p : nlprob) (rho : env) : R := match nl_obj p with Some o => evalE M o rho | None => 0 end.
(** A comparison with < and > read as <= and >= *)
Definition relaxed (M : interp) (f : formula) (rho : env) : Prop :=
  match f with
  | FRel RGt a b => evalE M a rho >= evalE M b rho
  | FRel RLt a b => evalE M a rho <= evalE M b rho
  | _ => holds M f rho
  end.
(** By how much an inequality is violated (negative: satisfied with that much to spare) *)
Definition violation (M : interp) (f : formula) (rho : env) : R :=
  match f with
  | FRel RGt a b | FRel RGeq a b => evalE M b rho - evalE M a rho
  | FRel RLt a b | FRel RLeq a b => evalE M a rho - evalE M b rho
  | _ => 0
  end.
(** The formula mentions a variable that is not among [vs]. *)
Definition mixed (vs : list var) (f : formula) : bool := existsb (fun v => negb (mem_var v vs)) (fvF f).
(** A comparison; and if it compares a variable with a numeric literal, a variable among [vs] *)
Definition query_lit (vs : list var) (f : formula) : Prop :=
  (exists o a b, f = FRel o a b) /\ forall o v c cs, bound_lit f = Some (o, v, c :: cs) -> In v vs.
(** NLopt's answers: as many numbers as it was given, and none infinite or NaN *)
Definition nl_numbers (nl : nlprob -> list (var * dbl) -> list dbl -> option (bool * list dbl)) : Prop :=
  forall p e x ok y, nl p e x = Some (ok, y) -> length y = length x /\ Forall (fun c => is_finite c = true) y.
(** If the formula compares a variable with a literal: with one double, a strict one only above DBL_MIN and below DBL_MAX *)
Definition exact_if_bound (f : formula) : Prop := forall o v c cs, bound_lit f = Some (o, v, c :: cs) -> exact_lit f true.
