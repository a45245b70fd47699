(** * Properties of bound filtering (C17) *)
From Coq Require Import ZArith Reals List Bool.
From Flocq Require Import IEEE754.BinarySingleNaN.
From Verif Require Import Dbl Syntax Sem Interval IEval StdInterp ExamplesForm ExamplesBox Filter FilterProofs ExamplesFilter.
Import ListNotations.

(** Every point of the box that satisfies the literal stays, unless it puts a real variable strictly
    between a strict bound and the neighbouring double. *)
Theorem C17_solutions_kept_partial : forall M f b b' r,
  rc_ok M -> box_ok b -> (forall v, In v (fvF f) -> In v (bvars b)) -> finF f ->
  filter_assertion f b = Some (r, b') ->
  forall rho, in_box rho b -> holds M f rho -> gap_free f rho -> in_box rho b'.
Proof. exact filter_keeps. Qed.
Print Assumptions C17_solutions_kept_partial.
(** Nothing is added; the dimensions are the same. *)
Theorem C17_only_shrinks : forall M f b b' r,
  rc_ok M -> box_ok b -> (forall v, In v (fvF f) -> In v (bvars b)) -> finF f ->
  filter_assertion f b = Some (r, b') ->
  box_ok b' /\ bvars b' = bvars b /\ (forall rho, in_box rho b' -> in_box rho b).
Proof. exact filter_shrinks. Qed.
Print Assumptions C17_only_shrinks.
(** Every point of the new box satisfies an absorbed literal (strict ones: bound between DBL_MIN and DBL_MAX). *)
Theorem C17_absorbed_literal_holds_partial : forall M f b b' r,
  rc_ok M -> box_ok b -> (forall v, In v (fvF f) -> In v (bvars b)) -> finF f ->
  filter_assertion f b = Some (r, b') -> r <> NotFiltered -> exact_lit f true ->
  forall rho, in_box rho b' -> holds M f rho.
Proof. exact filter_exact. Qed.
Print Assumptions C17_absorbed_literal_holds_partial.
(** The other dimensions are untouched, unless the whole box is emptied. *)
Theorem C17_other_dimensions : forall M f b b' r,
  rc_ok M -> box_ok b -> (forall v, In v (fvF f) -> In v (bvars b)) -> finF f ->
  filter_assertion f b = Some (r, b') ->
  b' = b_set_empty b \/ (forall j w, nth_error (bvars b) j = Some w -> ~ In w (fvF f) -> b_get b' j = b_get b j).
Proof. exact filter_other. Qed.
Print Assumptions C17_other_dimensions.
Example C17_example : box_ok exb /\ (forall v, In v (fvF f_x_le3) -> In v (bvars exb)) /\ finF f_x_le3 /\ exact_lit f_x_le3 true /\
  match filter_assertion f_x_le3 exb with
  | Some (FilteredWithChange, b') => i_eqb (b_get b' 0) (IV dzero (dZ 3)) && i_eqb (b_get b' 1) (b_get exb 1) | _ => false end = true.
Proof. exact (conj exb_ok (conj (proj1 f_x_le3_hyps) (conj (proj2 f_x_le3_hyps) (conj f_x_le3_exact filt_x_le3)))). Qed.

(** Findings: the property as stated fails for strict bounds on real variables. *)
Theorem C17_strict_bound_loses_points_refuted : forall M, exists r b' rho,
  filter_assertion f_gt1 exn = Some (r, b') /\ in_box rho exn /\ holds M f_gt1 rho /\ ~ in_box rho b'.
Proof. exact gt1_loses. Qed.
Print Assumptions C17_strict_bound_loses_points_refuted.
Theorem C17_strict_upper_bound_keeps_violations_refuted : forall M, exists r b' rho,
  filter_assertion f_lt0 exn = Some (r, b') /\ r <> NotFiltered /\ in_box rho b' /\ ~ holds M f_lt0 rho.
Proof. exact lt0_keeps. Qed.
Print Assumptions C17_strict_upper_bound_keeps_violations_refuted.
