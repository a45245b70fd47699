(** C57: IsDifferentiable answers true exactly for terms without kinks, and such terms are differentiable. *)
From Coq Require Import ZArith Reals List Bool.
From Flocq Require Import Core.Core IEEE754.BinarySingleNaN.
From Verif Require Import Dbl Syntax Sem StdInterp MathConv ExprAlg Diff SpecDiff Refiner SpecSmooth SmoothProofs ExamplesForm ExamplesAlg ExamplesDiff ExamplesSmooth.
Import ListNotations.

(** If the answer for an expression is true, the expression has a derivative with respect to every variable at every point at which its
    operations are applied inside the open part of their domains. *)
Theorem C57_differentiable (uf : nat -> list R -> R) (rc : dbl -> dbl -> R) (e : expr) (rho : env) (x : var) :
  is_diffE e = true -> inside (std uf rc) e rho ->
  exists l, derivable_pt_lim (fun z => evalE (std uf rc) e (at_x rho x z)) (rho x) l.
Proof. exact (differentiable uf rc x rho e). Qed.
Print Assumptions C57_differentiable.

(** The answer is false exactly if an absolute value, minimum, maximum, if-then-else or uninterpreted function occurs. *)
Theorem C57_expressions (e : expr) : is_diffE e = true <-> forall s, inE s e -> ~ kink s.
Proof. exact (diffE_spec e). Qed.
Print Assumptions C57_expressions.

(** For a formula: exactly if a quantifier occurs or such an expression in one of its comparisons. *)
Theorem C57_formulas (f : formula) : is_diffF f = true <-> forall s, inF s f -> ~ kinkF s.
Proof. exact (diffF_spec f). Qed.
Print Assumptions C57_formulas.

(** 3 + 2 x^2 y + sin(x) / y at (-2, 3); |x| has no derivative at 0 although every operation is inside its domain. *)
Example C57_example :
  is_diffE dexp = true /\ (forall uf rc, inside (std uf rc) dexp rho_d) /\ is_diffE (EUn UAbs ex) = false /\
  (forall uf rc rho, inside (std uf rc) (EUn UAbs ex) rho) /\
  (forall uf rc, ~ exists l, derivable_pt_lim (fun z => evalE (std uf rc) (EUn UAbs ex) (at_x (fun _ => 0%R) ExamplesForm.vx z)) 0 l).
Proof. exact smooth_meets. Qed.
Print Assumptions C57_example.

(** Differentiate may throw for an expression that IsDifferentiable accepts. *)
Theorem C57_throws_refuted : exists (e : expr) (x : var), is_diffE e = true /\ forall fpow, exists t, diff fpow 20 x e = (Throw, t).
Proof. exact (ex_intro _ log0 (ex_intro _ ExamplesForm.vx log0_throws)). Qed.
Print Assumptions C57_throws_refuted.
