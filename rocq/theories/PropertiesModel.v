(** * Properties of the reported model: C29, C30 *)
From Coq Require Import ZArith Reals List Bool.
From Flocq Require Import IEEE754.BinarySingleNaN.
From Verif Require Import Dbl Syntax Sem SpecForm Scoped Interval MathConv IEval IEvalProofs Contr ContrProofs IbexConv IbexConvProofs Icp IcpPar Filter Theory
  IteElim SpecIte Regular Wff Sat Context SpecCtx SatSem CtxTop SpecModel CtxModelTop StdInterp ExamplesForm ExamplesBox ExamplesEval ExamplesContr ExamplesIcp ExamplesIte ExamplesCtx ExamplesModel.
Import ListNotations.

(** ** C29.  At every check of a history that answers delta-sat, the model reports exactly the variables the
    user marked (provided they are all still declared), each within its declared domain.
    Left out: histories outside [admissible] (as for C01), domains of integer-valued variables with
    non-integral bounds (refuted below), a model variable that was popped (refuted below). *)
Theorem C29_model_variables_and_domains_partial :
  forall M D fold esub eneg m A L fa term pn mid precision use_worklist k left_first K pico n ops c answers,
  rc_ok M -> mid_ok mid -> ibex_ok M D L -> eneg_faithful M D eneg -> sqrt_ok M D -> ia_ok M D A -> esub_ok M D esub -> pico_ok pico ->
  is_finite precision = true -> (0 < B2R precision)%R ->
  cx_run fold K pico (solver_seq esub eneg m (ibex_oracles L esub eneg m fa) term pn (rel_eval A esub) mid precision use_worklist k left_first) mid precision ops (cx_init n) = Some (c, answers) ->
  admissible M D fold K n ops [] (p_empty, []) -> ints_ok use_worklist ops -> Forall op_typed ops ->
  Forall2 (fun q answer => model_ok (fst q) (snd q) answer) (checks ops (p_empty, []) []) answers.
Proof.
  exact (fun M D fold esub eneg m A L fa term pn mid precision wl k lf K pico n ops c a RC Hm HL HN HS HA HD HP Fp Pp =>
    model_top M D fold mid precision wl RC Hm K pico n _ HP (T_seq M D fold esub eneg m A L fa term pn mid precision wl RC Hm HL HN HS HA HD k lf)
      (T_box_seq M D fold esub eneg m A L fa term pn mid precision wl RC Hm HL HN HS HA HD k lf) Fp Pp ops c a).
Qed.
Print Assumptions C29_model_variables_and_domains_partial.
Theorem C29_parallel_model_variables_and_domains_partial :
  forall M D fold esub eneg m A L fa term pn mid precision use_worklist left_first jobs sched K pico n ops c answers,
  rc_ok M -> mid_ok mid -> ibex_ok M D L -> eneg_faithful M D eneg -> sqrt_ok M D -> ia_ok M D A -> esub_ok M D esub -> pico_ok pico -> jobs <> 0 ->
  is_finite precision = true -> (0 < B2R precision)%R ->
  cx_run fold K pico (solver_par esub eneg m (ibex_oracles L esub eneg m fa) term pn (rel_eval A esub) mid precision use_worklist left_first jobs sched) mid precision ops (cx_init n) = Some (c, answers) ->
  admissible M D fold K n ops [] (p_empty, []) -> ints_ok use_worklist ops -> Forall op_typed ops ->
  Forall2 (fun q answer => model_ok (fst q) (snd q) answer) (checks ops (p_empty, []) []) answers.
Proof.
  exact (fun M D fold esub eneg m A L fa term pn mid precision wl lf jobs sched K pico n ops c a RC Hm HL HN HS HA HD HP J Fp Pp =>
    model_top M D fold mid precision wl RC Hm K pico n _ HP (T_par M D fold esub eneg m A L fa term pn mid precision wl RC Hm HL HN HS HA HD lf jobs sched J)
      (T_box_par M D fold esub eneg m A L fa term pn mid precision wl RC Hm HL HN HS HA HD lf jobs sched) Fp Pp ops c a).
Qed.
Print Assumptions C29_parallel_model_variables_and_domains_partial.
(** The other hypotheses are met as shown with C01. *)
Example C29_hypotheses_met : admissible Mstd stdD nofold kplain 10 ops1 [] (p_empty, []) /\ Forall op_typed ops1 /\ is_finite half = true /\
  verdicts (run_ex ex_T ops1) = Some [false; true] /\ map snd (checks ops1 (p_empty, []) []) = [[vb; vi; vx]; [vb; vi; vx]].
Proof. exact (conj ops1_adm (conj ops1_typed (conj eq_refl (conj (proj1 ops1_runs) eq_refl)))). Qed.
(** A solver-internal variable is reported: the number of model variables ever marked happens to be the
    number of dimensions. *)
Theorem C29_internal_variable_refuted : exists c m, run_ex ex_T ops_hidden = Some (c, [Some m]) /\
  exists v, In v (bvars m) /\ forall o, In o ops_hidden -> match o with ODeclare w _ | ODeclareDom w _ _ _ | ONew w => w <> v | _ => True end.
Proof. exact hidden_wrong. Qed.
Print Assumptions C29_internal_variable_refuted.
(** An Int variable in [1/2, 7/8] is reported to be 0. *)
Theorem C29_fractional_domain_refuted : exists c m, run_p quarter ops_frac = Some (c, [Some m]) /\ In vi (bvars m) /\ imem 0 (b_getv m vi) /\ ~ between (mkd 1 (-1)) (mkd 7 (-3)) 0.
Proof. exact frac_wrong. Qed.
Print Assumptions C29_fractional_domain_refuted.

(** ** C30.  The model of a delta-sat answer against the box that was accepted: the same dimensions, each
    non-empty if the accepted one is and tightened as [tight_ok] says: a continuous dimension is a part of the
    accepted one, no wider than the precision up to the rounding of its two ends; an over-wide integer
    dimension is one integer, inside every interval with integral ends that contains the accepted dimension.
    From every reachable context. *)
Theorem C30_model_tightened_partial :
  forall M D fold esub eneg m A L fa term pn mid precision use_worklist k left_first K pico n ops c answers j model c',
  let T := solver_seq esub eneg m (ibex_oracles L esub eneg m fa) term pn (rel_eval A esub) mid precision use_worklist k left_first in
  rc_ok M -> mid_ok mid -> ibex_ok M D L -> eneg_faithful M D eneg -> sqrt_ok M D -> ia_ok M D A -> esub_ok M D esub -> pico_ok pico ->
  is_finite precision = true -> (0 < B2R precision)%R ->
  cx_run fold K pico T mid precision ops (cx_init n) = Some (c, answers) -> admissible M D fold K n ops [] (p_empty, []) -> ints_ok use_worklist ops ->
  cx_check fold pico T mid precision j c = Some (Some model, c') ->
  exists b B, cx_box c = Some b /\ accepted_box T b B /\ b_empty B = false /\
    forall v, In v (bvars model) -> In v (bvars B) /\
      ((exists x, imem x (b_getv B v)) -> tight_ok precision (vty v) (b_getv B v) (b_getv model v)) /\
      ((forall x, ~ imem x (b_getv B v)) -> forall x, ~ imem x (b_getv model v)).
Proof.
  exact (fun M D fold esub eneg m A L fa term pn mid precision wl k lf K pico n ops c a j md c' RC Hm HL HN HS HA HD HP Fp Pp =>
    tight_top M D fold mid precision wl RC Hm K pico n _ HP (T_seq M D fold esub eneg m A L fa term pn mid precision wl RC Hm HL HN HS HA HD k lf)
      (T_box_seq M D fold esub eneg m A L fa term pn mid precision wl RC Hm HL HN HS HA HD k lf) Fp Pp ops c a j md c').
Qed.
Print Assumptions C30_model_tightened_partial.
Theorem C30_parallel_model_tightened_partial :
  forall M D fold esub eneg m A L fa term pn mid precision use_worklist left_first jobs sched K pico n ops c answers j model c',
  let T := solver_par esub eneg m (ibex_oracles L esub eneg m fa) term pn (rel_eval A esub) mid precision use_worklist left_first jobs sched in
  rc_ok M -> mid_ok mid -> ibex_ok M D L -> eneg_faithful M D eneg -> sqrt_ok M D -> ia_ok M D A -> esub_ok M D esub -> pico_ok pico -> jobs <> 0 ->
  is_finite precision = true -> (0 < B2R precision)%R ->
  cx_run fold K pico T mid precision ops (cx_init n) = Some (c, answers) -> admissible M D fold K n ops [] (p_empty, []) -> ints_ok use_worklist ops ->
  cx_check fold pico T mid precision j c = Some (Some model, c') ->
  exists b B, cx_box c = Some b /\ accepted_box T b B /\ b_empty B = false /\
    forall v, In v (bvars model) -> In v (bvars B) /\
      ((exists x, imem x (b_getv B v)) -> tight_ok precision (vty v) (b_getv B v) (b_getv model v)) /\
      ((forall x, ~ imem x (b_getv B v)) -> forall x, ~ imem x (b_getv model v)).
Proof.
  exact (fun M D fold esub eneg m A L fa term pn mid precision wl lf jobs sched K pico n ops c a j md c' RC Hm HL HN HS HA HD HP J Fp Pp =>
    tight_top M D fold mid precision wl RC Hm K pico n _ HP (T_par M D fold esub eneg m A L fa term pn mid precision wl RC Hm HL HN HS HA HD lf jobs sched J)
      (T_box_par M D fold esub eneg m A L fa term pn mid precision wl RC Hm HL HN HS HA HD lf jobs sched) Fp Pp ops c a j md c').
Qed.
Print Assumptions C30_parallel_model_tightened_partial.
Example C30_hypotheses_met : admissible Mstd stdD nofold kplain 10 ops1 [] (p_empty, []) /\ ints_ok false ops1 /\ verdicts (run_ex ex_T ops1) = Some [false; true].
Proof. exact (conj ops1_adm (conj (fun C _ _ _ _ => False_ind _ (Bool.diff_false_true C)) (proj1 ops1_runs))). Qed.
(** The two ends are rounded to nearest, so a dimension can be wider than the precision. *)
Theorem C30_width_refuted : exists c m a b, run_p three_half ops_wide = Some (c, [Some m]) /\ imem a (b_getv m vx) /\ imem b (b_getv m vx) /\ (b - a > B2R three_half)%R.
Proof. exact wide_wrong. Qed.
Print Assumptions C30_width_refuted.
