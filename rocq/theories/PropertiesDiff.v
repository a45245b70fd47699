(** * Properties of symbolic differentiation (C22)

    [exact M s] (SpecAlg.v): an assumption recorded in the run holds.  [smooth M x e rho] (SpecDiff.v): at
    [rho] every sub-expression of [e] is at a point where its differentiation rule applies. *)
From Coq Require Import ZArith Reals List Bool.
From Flocq Require Import IEEE754.BinarySingleNaN.
From Verif Require Import Dbl Syntax Sem IEval StdInterp FormulaCons ExprAlg SpecAlg Diff SpecDiff DiffProofs ExamplesForm ExamplesAlg ExamplesDiff.
Import ListNotations.
Local Open Scope R_scope.

(** Missing from the full statement: points where a factor of a product is zero, and doubles that round. *)
Theorem C22_derivative_partial : forall uf rc fpow n x rho e r t,
  smooth (std uf rc) x e rho -> defE (std uf rc) stdD e rho ->
  diff fpow n x e = (Val r, t) -> Forall (exact (std uf rc)) t ->
  defE (std uf rc) stdD r rho /\
  derivable_pt_lim (fun z => evalE (std uf rc) e (at_x rho x z)) (rho x) (evalE (std uf rc) r rho).
Proof. exact (fun uf rc fpow n x rho e r t S D E T => diff_top uf rc fpow n x rho e r t S D E T). Qed.
Print Assumptions C22_derivative_partial.

(** 3 + 2 x^2 y + sin(x) / y at (-2, 3) *)
Example C22_not_vacuous : forall uf rc fpow,
  smooth (std uf rc) vx dexp rho_d /\ defE (std uf rc) stdD dexp rho_d /\
  exists t, diff fpow 9 vx dexp = (Val dres, t) /\ Forall (exact (std uf rc)) t.
Proof.
  exact (fun uf rc fpow => match diff_smooth uf rc with conj HS D => conj HS (conj D
    (match gives_ok uf rc _ _ (diff_runs fpow) with ex_intro _ t (conj E (conj T _)) => ex_intro _ t (conj E T) end)) end).
Qed.
