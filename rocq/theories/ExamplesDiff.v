(** Derivatives computed. *)
From Coq Require Import ZArith Reals Lra Lia List Bool.
From Flocq Require Import Core.Core IEEE754.BinarySingleNaN.
From Verif Require Import Dbl DblProofs Syntax Sem SemProofs FormulaCons FormulaConsProofs IEval StdInterp MathConv MathConvProofs
  Order ExprAlg SpecAlg PowProofs ExprAlgProofs Diff SpecDiff DiffProofs ExamplesForm ExamplesAlg.
Import ListNotations.
Local Open Scope R_scope.
Local Notation R := Rdefinitions.R.

(** 3 + 2 x^2 y + sin(x) / y, by x: 4 x y + cos(x) y / y^2 *)
Definition dexp := EAdd (dZ 3) [(EMul (dZ 2) [(ex, kk 2); (ey, kk 1)], dZ 1); (EBin BDiv (EUn USin ex) ey, dZ 1)].
Definition dres := EAdd (dZ 0) [(EMul (dZ 1) [(ex, kk 1); (ey, kk 1)], dZ 4); (EBin BDiv (EMul (dZ 1) [(ey, kk 1); (EUn UCos ex, kk 1)]) (EBin BPow ey (kk 2)), dZ 1)].
Example diff_runs : forall fpow, gives (diff fpow 9 vx dexp) dres = true.
Proof. intros fpow. vm_compute. reflexivity. Qed.
Definition rho_d (v : var) : R := if var_eqb v vx then -2 else 3.
Example diff_smooth : forall uf rc, smooth (std uf rc) vx dexp rho_d /\ defE (std uf rc) stdD dexp rho_d.
Proof.
  intros uf rc. assert (B1 : B2R (dZ 1) = 1) by (apply zof_val; vm_compute; reflexivity).
  assert (B2 : B2R (dZ 2) = 2) by (apply zof_val; vm_compute; reflexivity).
  assert (I2 : isint (B2R (dZ 2))) by (rewrite B2; now exists 2%Z).
  assert (N : rho_d vx = -2) by reflexivity. assert (N' : rho_d vy = 3) by reflexivity.
  assert (P2 : pow_def (-2) (B2R (dZ 2))) by (right; right; split; [lra|exact I2]).
  assert (P1 : pow_def 3 (B2R (dZ 1))) by (left; lra).
  split.
  - cbn [dexp smooth fold_right]. refine (conj (conj (conj I (conj I (conj _ _))) (conj (conj I (conj I (conj _ _))) I)) (conj (conj (conj I I) (conj I _)) I)).
    + change (rho_d vx <> 0). lra.
    + right. split; [vm_compute; reflexivity|]. split; [exact I2|]. left. change (rho_d vx <> 0). lra.
    + change (rho_d vy <> 0). lra.
    + left. change (0 < rho_d vy). lra.
    + change (rho_d vy <> 0). lra.
  - refine (conj (conj (conj I (conj I P2)) (conj (conj I (conj I P1)) I)) (conj (conj (conj I I) (conj I _)) I)). change (3 <> 0). lra.
Qed.
(** |x| by x has no derivative; |y| by x is 0 *)
Example diff_abs : forall fpow, diff fpow 9 vx (EUn UAbs ex) = (Throw, []) /\ diff fpow 9 vx (EUn UAbs ey) = (Val (EConst dzero), []).
Proof. intros fpow. split; reflexivity. Qed.
