(** * Properties of local optimisation (C52) *)
From Coq Require Import ZArith Reals List Bool.
From Flocq Require Import IEEE754.BinarySingleNaN.
From Verif Require Import Dbl Syntax Sem SpecForm FormulaCons Interval MathConv IEval IEvalProofs ExprAlg SpecAlg DeltaStr Contr ContrProofs IbexConv IbexConvProofs Icp IcpProofs IcpPar Filter Theory TheoryUsed
  IteElim SpecIte Regular Wff Scoped Sat Context SpecCtx SpecApi CtxInv CtxTop CtxModelTop StdInterp Forall SpecForall ForallInner ForallProofs ForallEval Refiner SpecRefine RefinerProofs
  ExamplesForm ExamplesBox ExamplesEval ExamplesAlg ExamplesContr ExamplesIcp ExamplesIte ExamplesCtx ExamplesForall ExamplesRefine PropertiesForall.
Import ListNotations.

(** ** C52.  Whatever the optimiser answers: the refined counterexample is over the same variables; the variables that are not
    quantified keep their values; and either nothing changes or each quantified variable becomes the number found for it. *)
Theorem C52_refined : forall mid nl o fvs b, box_ok b -> NoDup fvs -> incl fvs (bvars b) -> let b' := cr_refine mid nl o fvs b in
  box_ok b' /\ bvars b' = bvars b /\ (forall v, In v (bvars b) -> ~ In v fvs -> b_getv b' v = b_getv b v) /\
  (b' = b \/ exists p x, o = Some p /\ nl p (cr_env mid fvs b) (cr_start mid fvs b) = Some (true, x) /\ forall i v c, nth_error fvs i = Some v -> nth_error x i = Some c -> b_getv b' v = i_point c).
Proof. exact refined. Qed.
Print Assumptions C52_refined.
(** The search starts at the midpoint of each quantified variable, with every other variable fixed at its midpoint. *)
Theorem C52_start : forall mid fvs b, filter (fun v => mem_var v fvs) (bvars b) = fvs ->
  (forall i v, nth_error fvs i = Some v -> nth_error (cr_start mid fvs b) i = Some (i_midd mid (b_getv b v))) /\ length (cr_start mid fvs b) = length fvs /\
  (forall v c, In (v, c) (cr_env mid fvs b) <-> In v (bvars b) /\ ~ In v fvs /\ c = i_midd mid (b_getv b v)).
Proof. exact start_mid. Qed.
Print Assumptions C52_start.
(** x in [0,4], y in [0,2], y quantified, and an optimiser that answers 1 *)
Example C52_refined_example : box_ok b_xy /\ NoDup [vy] /\ incl [vy] (bvars b_xy) /\ filter (fun v => mem_var v [vy]) (bvars b_xy) = [vy] /\
  cr_refine ibex_mid nl_one (Some p1) [vy] b_xy = mkBox [vx; vy] [IV (dZ 0) (dZ 4); i_point (dZ 1)] /\ cr_start ibex_mid [vy] b_xy = [dZ 1] /\ cr_env ibex_mid [vy] b_xy = [(vx, dZ 2)].
Proof. exact xy_refined. Qed.
(** The problem handed to the optimiser admits every point of the query (strict bounds on reals: outside the gap to the next double) *)
Theorem C52_problem_covers_partial : forall uf rc fpow n fvs, rc_ok (std uf rc) -> NoDup fvs -> forall q p t rho,
  (forall f, In f (cr_query q) -> query_lit fvs f /\ finF f /\ defF (std uf rc) stdD f rho) ->
  cr_new fpow n q fvs = (Val (Some p), t) -> Forall (exact (std uf rc)) t ->
  in_box rho (cr_box fvs) -> (forall f, In f (cr_query q) -> holds (std uf rc) f rho /\ gap_free f rho) -> feasible (std uf rc) p rho.
Proof. exact problem_covers. Qed.
Print Assumptions C52_problem_covers_partial.
(** and only points that satisfy it with < and > read as <= and >=. *)
Theorem C52_problem_means_partial : forall uf rc fpow n fvs, rc_ok (std uf rc) -> NoDup fvs -> forall q p t rho,
  (forall f, In f (cr_query q) -> query_lit fvs f /\ finF f /\ defF (std uf rc) stdD f rho) ->
  cr_new fpow n q fvs = (Val (Some p), t) -> Forall (exact (std uf rc)) t ->
  feasible (std uf rc) p rho -> (forall f, In f (cr_query q) -> exact_if_bound f) -> in_box rho (cr_box fvs) /\ forall f, In f (cr_query q) -> relaxed (std uf rc) f rho.
Proof. exact problem_means. Qed.
Print Assumptions C52_problem_means_partial.
(** The value minimised is the sum of the violations of the inequalities that mention a variable that is not quantified. *)
Theorem C52_objective : forall uf rc fpow n fvs, rc_ok (std uf rc) -> NoDup fvs -> forall q p t rho,
  (forall f, In f (cr_query q) -> query_lit fvs f /\ finF f /\ defF (std uf rc) stdD f rho) ->
  cr_new fpow n q fvs = (Val (Some p), t) -> Forall (exact (std uf rc)) t ->
  objective (std uf rc) p rho = fold_right Rplus 0%R (map (fun f => violation (std uf rc) f rho) (filter (mixed fvs) (cr_query q))).
Proof. exact problem_objective. Qed.
Print Assumptions C52_objective.
(** y < 7/4, y >= -1, x + y - 1/4 > 3, with y quantified; at x = 4, y = 1. *)
Example C52_problem_example : forall uf rc fpow, rc_ok (std uf rc) -> exists t, cr_new fpow 20 q2 [vy] = (Val (Some p2), t) /\ Forall (exact (std uf rc)) t /\
  (forall f, In f (cr_query q2) -> query_lit [vy] f /\ finF f /\ (forall M D rho, defF M D f rho) /\ exact_if_bound f) /\
  in_box (at2 4 1) (cr_box [vy]) /\ (forall f, In f (cr_query q2) -> holds (std uf rc) f (at2 4 1) /\ gap_free f (at2 4 1)) /\ filter (mixed [vy]) (cr_query q2) = [FRel RGt xyq (EConst (dZ 3))].
Proof.
  exact (fun uf rc fpow _ => match gives_p_ok uf rc _ _ (p2_from fpow) with ex_intro _ t (conj E H) => ex_intro _ t (conj E (conj H (conj q2_lits (conj (proj1 (q2_point uf rc)) (conj (proj2 (q2_point uf rc)) eq_refl))))) end).
Qed.
(** Pruning with local optimisation keeps every solution, for every optimiser that answers with finite numbers. *)
Theorem C52_pruning_partial :
  forall M D fold esub eneg m A L fa term pn mid precision use_worklist k left_first K pico nx nl o fpow n kk use_polytope qs g vars eps ops ctc t c0 b0 c1 bs fuel rounds bs',
  rc_ok M -> mid_ok mid -> ibex_ok M D L -> eneg_faithful M D eneg -> sqrt_ok M D -> ia_ok M D A -> esub_ok M D esub -> pico_ok pico -> is_finite precision = true -> (0 < B2R precision)%R ->
  let T := solver_seq esub eneg m (ibex_oracles L esub eneg m fa) term pn (rel_eval A esub) mid precision use_worklist k left_first in
  NoDup (vars ++ qs) -> vars ++ qs <> [] -> (forall v, In v (vars ++ qs) -> vty v = CONTINUOUS) ->
  unfolded fold g -> consts_finite g -> (forall v, In v (fvF g) -> In v (vars ++ qs)) -> nl_numbers nl ->
  fc_setup fold fpow n kk esub eneg m use_polytope (FForall qs g) vars eps = (Val (ops, Some ctc), t) ->
  cx_run fold K pico T mid precision ops (cx_init nx) = Some (c0, []) -> admissible M D fold K nx ops [] (p_empty, []) -> cx_box c0 = Some b0 -> b_full b0 ->
  (forall b, In b bs -> box_ok b /\ b_full b /\ bvars b = vars) ->
  fc_prunes fold K pico T mid precision (ibex_oracles L esub eneg m fa) term pn (cr_refine mid nl o qs) (FForall qs g) ctc fuel rounds bs c0 = Some (c1, bs') ->
  Forall2 (fun b b' => box_sub b' b /\ forall rho, in_box rho b -> solves M D (FForall qs g) rho -> in_box rho b') bs bs'.
Proof.
  exact (fun M D fold esub eneg m A L fa term pn mid precision wl k lf K pico nx nl o fpow n kk up qs g vars eps ops ctc t c0 b0 c1 bs fuel rounds bs' RC Hm HL HN HS HA HD HP Fp Pp H1 H2 H3 H4 H5 H6 H7 =>
    C33_pruning_partial M D fold esub eneg m A L fa term pn mid precision wl k lf K pico nx (cr_refine mid nl o qs) fpow n kk up qs g vars eps ops ctc t c0 b0 c1 bs fuel rounds bs' RC Hm HL HN HS HA HD HP Fp Pp H1 H2 H3 H4 H5 H6
      (refine_numbers mid nl o qs (vars ++ qs) H7 (NoDup_app_r vars qs H1) (incl_appr vars (incl_refl qs)))).
Qed.
Print Assumptions C52_pruning_partial.
(** For all y: y >= 2 or y <= -1 or x + y <= 3, with an optimiser that always answers 1. *)
Example C52_hypotheses_met : exists ctc t c0 b0 c1,
  NoDup ([vx] ++ [vy]) /\ (forall v, In v ([vx] ++ [vy]) -> vty v = CONTINUOUS) /\ unfolded nofold body1 /\ consts_finite body1 /\ (forall v, In v (fvF body1) -> In v ([vx] ++ [vy])) /\ nl_numbers nl_one /\
  setup_ex fa1 = (Val (fopsq, Some ctc), t) /\ run_ex ex_T fopsq = Some (c0, []) /\ admissible Mstd stdD nofold kplain 10 fopsq [] (p_empty, []) /\ cx_box c0 = Some b0 /\ b_full b0 /\
  (forall b, In b [bx 0 4; bx 0 1] -> box_ok b /\ b_full b /\ bvars b = [vx]) /\
  prunes_lo nl_one fa1 [bx 0 4; bx 0 1] ctc c0 = Some (c1, [bx 0 4; bx 0 1]).
Proof. exact one_meets. Qed.

(** Findings.  An infinite answer: the box x in [0,4] is pruned to nothing, although x = 0 satisfies the formula. *)
Theorem C52_infinite_refuted : ibex_ok Mstd stdD lib_e /\ exists t t' c,
  lo_refiner nofold (fun a _ => a) 20 20 fa1 quarter = (Val (Some p1), t') /\
  fc_life nofold kplain brute ex_T ibex_mid half (fun a _ => a) 20 20 plain_sub plain_neg 10 orc_e default_term 20 false (cr_refine ibex_mid nl_inf (Some p1) [vy]) fa1 [vx] quarter 10 20 20 [bx 0 4] =
    (Val (Some (c, [bx_none])), t) /\ Forall (exact Mstd) t /\ exists rho, in_box rho (bx 0 4) /\ solves Mstd stdD fa1 rho.
Proof. exact (conj lib_e_ok inf_wrong). Qed.
Print Assumptions C52_infinite_refuted.
(** A bound on a variable that is not quantified is imposed on the first quantified one instead: x > 3 and x > y becomes y > 3 and x >= y. *)
Theorem C52_other_bound_refuted : forall uf rc fpow, exists t rho,
  cr_new fpow 20 q3 [vy] = (Val (Some p3), t) /\ Forall (exact (std uf rc)) t /\ solves (std uf rc) stdD q3 rho /\ gap_free (FRel RGt (EVar vx) (EConst (dZ 3))) rho /\ ~ feasible (std uf rc) p3 rho.
Proof. exact q3_wrong. Qed.
Print Assumptions C52_other_bound_refuted.
(** For all y: x = y.  The contractor is built without local optimisation; with it the constructor throws. *)
Theorem C52_equality_refuted : forall fpow, throws (lo_refiner nofold fpow 20 20 fa5 quarter) = true /\ sets_up (setup_ex fa5) = true.
Proof. exact fa5_throws. Qed.
Print Assumptions C52_equality_refuted.
(** A negated comparison added as a constraint is added without its negation. *)
Theorem C52_negation_refuted : forall uf rc fpow, exists p t, add_con nofold fpow 20 (FNot xgty) nl0 = (Val p, t) /\ Forall (exact (std uf rc)) t /\
  (exists rho, solves (std uf rc) stdD (FNot xgty) rho /\ ~ feasible (std uf rc) p rho) /\ exists rho, feasible (std uf rc) p rho /\ ~ holds (std uf rc) (FNot xgty) rho.
Proof. exact not_wrong. Qed.
Print Assumptions C52_negation_refuted.
