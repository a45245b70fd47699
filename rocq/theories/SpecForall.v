(** * Specification vocabulary for quantified constraints (C32, C33) *)
From Coq Require Import ZArith Reals List Bool.
From Verif Require Import Dbl Syntax Sem SpecForm Interval IEval Contr SpecCtx.
Import ListNotations.
Local Notation R := Rdefinitions.R.

(** The domain of a variable declared without bounds *)
Definition default_dm (v : var) : R -> Prop := dom0 (vty v).
(** The domains after those of the variables [l] have been set from the box [b] *)
Definition box_dm (l : list var) (b : box) (dm : var -> R -> Prop) (v : var) : R -> Prop := if mem_var v l then between (ilb (b_getv b v)) (iub (b_getv b v)) else dm v.
(** The boxes are over variables of [vs], inside the domains, and each lies in the one before. *)
Fixpoint nested (vs : list var) (dm : var -> R -> Prop) (bs : list box) : Prop :=
  match bs with
  | [] => True
  | b :: bs' => NoDup (bvars b) /\ incl (bvars b) vs /\ (forall v, In v (bvars b) -> dom_ok v (ilb (b_getv b v)) (iub (b_getv b v))) /\
      (forall v x, In v (bvars b) -> between (ilb (b_getv b v)) (iub (b_getv b v)) x -> dm v x) /\ nested vs (box_dm (bvars b) b dm) bs'
  end.
(** Every numeric literal of the formula is finite. *)
Definition consts_finite : formula -> Prop := rels_ok (fun _ a b => finE a /\ finE b).
(** Refining a counterexample gives a non-empty box over the same variables (the optimum found by nlopt, or the counterexample itself). *)
Definition refine_ok (refine : box -> box) (vs : list var) : Prop :=
  forall ce, box_ok ce -> b_full ce -> bvars ce = vs -> box_ok (refine ce) /\ b_full (refine ce) /\ bvars (refine ce) = vs.
