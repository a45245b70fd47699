(** * Properties of delta-sat answers: C02 *)
From Coq Require Import ZArith Reals List Bool.
From Flocq Require Import IEEE754.BinarySingleNaN.
From Verif Require Import Dbl Syntax Sem SpecForm Scoped Interval MathConv IEval IEvalProofs Contr ContrProofs IbexConv IbexConvProofs Icp IcpPar Filter Theory
  IteElim SpecIte Regular Wff Sat Context SpecCtx SatSem CtxTop SpecModel SpecWeak CtxModelTop CtxDelta CtxDeltaInv StdInterp ExamplesForm ExamplesBox ExamplesEval ExamplesContr ExamplesIcp ExamplesIte ExamplesCtx ExamplesModel ExamplesDelta.
Import ListNotations.

(** ** C02.  At every check of a history that answers delta-sat, every point of the accepted box (and of the
    reported one, in the dimensions that tightening keeps inside) satisfies the delta-weakening of every
    assertion in force.  [delta_ok] (SpecWeak.v) also lists the comparisons excused: undefined at the point,
    over variables none of which can be split any further, or bounds by a literal whose neighbouring double is
    further away than the precision.
    Left out: histories outside [delta_ops] (assertions with if-then-else terms; domains set after assertions
    and a [false] before the first declaration, both refuted below) and the excused comparisons. *)
Theorem C02_delta_sat_sound_partial :
  forall M D fold esub eneg m A L fa term pn mid precision use_worklist k left_first K pico n ops c answers,
  rc_ok M -> mid_ok mid -> ibex_ok M D L -> eneg_faithful M D eneg -> sqrt_ok M D -> ia_ok M D A -> esub_ok M D esub -> pico_ok pico ->
  is_finite precision = true -> (0 < B2R precision)%R ->
  cx_run fold K pico (solver_seq esub eneg m (ibex_oracles L esub eneg m fa) term pn (rel_eval A esub) mid precision use_worklist k left_first) mid precision ops (cx_init n) = Some (c, answers) ->
  admissible M D fold K n ops [] (p_empty, []) -> ints_ok use_worklist ops -> delta_ops fold ops (p_empty, []) ->
  Forall2 (fun q answer => delta_ok M D mid precision (fst q) answer) (checks ops (p_empty, []) []) answers.
Proof.
  exact (fun M D fold esub eneg m A L fa term pn mid precision wl k lf K pico n ops c a RC Hm HL HN HS HA HD HP Fp Pp =>
    delta_top M D fold mid precision wl RC Hm K pico n _ HP (T_seq M D fold esub eneg m A L fa term pn mid precision wl RC Hm HL HN HS HA HD k lf)
      (T_box_seq M D fold esub eneg m A L fa term pn mid precision wl RC Hm HL HN HS HA HD k lf)
      (T_weak_seq M D fold esub eneg m A L fa term pn mid precision wl RC Hm HL HN HS HA HD Fp Pp k lf) Fp Pp ops c a).
Qed.
Print Assumptions C02_delta_sat_sound_partial.
Theorem C02_parallel_delta_sat_sound_partial :
  forall M D fold esub eneg m A L fa term pn mid precision use_worklist left_first jobs sched K pico n ops c answers,
  rc_ok M -> mid_ok mid -> ibex_ok M D L -> eneg_faithful M D eneg -> sqrt_ok M D -> ia_ok M D A -> esub_ok M D esub -> pico_ok pico -> jobs <> 0 ->
  is_finite precision = true -> (0 < B2R precision)%R ->
  cx_run fold K pico (solver_par esub eneg m (ibex_oracles L esub eneg m fa) term pn (rel_eval A esub) mid precision use_worklist left_first jobs sched) mid precision ops (cx_init n) = Some (c, answers) ->
  admissible M D fold K n ops [] (p_empty, []) -> ints_ok use_worklist ops -> delta_ops fold ops (p_empty, []) ->
  Forall2 (fun q answer => delta_ok M D mid precision (fst q) answer) (checks ops (p_empty, []) []) answers.
Proof.
  exact (fun M D fold esub eneg m A L fa term pn mid precision wl lf jobs sched K pico n ops c a RC Hm HL HN HS HA HD HP J Fp Pp =>
    delta_top M D fold mid precision wl RC Hm K pico n _ HP (T_par M D fold esub eneg m A L fa term pn mid precision wl RC Hm HL HN HS HA HD lf jobs sched J)
      (T_box_par M D fold esub eneg m A L fa term pn mid precision wl RC Hm HL HN HS HA HD lf jobs sched)
      (T_weak_par M D fold esub eneg m A L fa term pn mid precision wl RC Hm HL HN HS HA HD Fp Pp lf jobs sched) Fp Pp ops c a).
Qed.
Print Assumptions C02_parallel_delta_sat_sound_partial.
(** The other hypotheses are met as shown with C01. *)
Example C02_hypotheses_met : admissible Mstd stdD nofold kplain 10 ops1 [] (p_empty, []) /\ delta_ops nofold ops1 (p_empty, []) /\ is_finite half = true /\
  verdicts (run_ex ex_T ops1) = Some [false; true] /\ verdicts (run_ex ex_P ops1) = Some [false; true].
Proof. exact (conj ops1_adm (conj ops1_delta (conj eq_refl ops1_runs))). Qed.

(** Without the restrictions: an Int variable with n >= 1/2 and n <= 5/4 is reported as 0 at precision 1/4. *)
Theorem C02_integer_bounds_refuted : exists f rho, breaks quarter ops_halves f rho.
Proof. exact halves_wrong. Qed.
Print Assumptions C02_integer_bounds_refuted.
(** x <= 3 is forgotten when the domain of x is set to [5, 10]. *)
Theorem C02_setinterval_refuted : exists f rho, breaks three_half ops_reset f rho.
Proof. exact reset_wrong. Qed.
Print Assumptions C02_setinterval_refuted.
(** x < -2^70 and x >= -2^70 + 2^17 is delta-sat at precision 1/4: the strict bound is moved outwards. *)
Theorem C02_strict_bound_refuted : exists f rho, breaks quarter ops_low f rho.
Proof. exact low_wrong. Qed.
Print Assumptions C02_strict_bound_refuted.
(** [false], then the first declaration, of an Int variable: delta-sat. *)
Theorem C02_false_forgotten_refuted : exists c m, run_p quarter ops_false = Some (c, [Some m]) /\ In (OAssert FFalse) ops_false.
Proof. exact false_wrong. Qed.
Print Assumptions C02_false_forgotten_refuted.
