(** * Quantified problems: C01, C29 *)
From Coq Require Import ZArith Reals List Bool.
From Flocq Require Import IEEE754.BinarySingleNaN.
From Verif Require Import Dbl Syntax Sem SpecForm Scoped Interval MathConv IEval IEvalProofs Contr ContrProofs IbexConv IbexConvProofs Icp IcpProofs IcpPar Filter Theory TheoryUsed
  IteElim SpecIte Regular Wff Sat Context SpecCtx SpecModel CtxStruct SatSem CdclProofs CtxInv CtxTop Forall SpecForall SpecQuant QuantTop
  StdInterp ExamplesForm ExamplesBox ExamplesEval ExamplesContr ExamplesIcp ExamplesIte ExamplesCtx ExamplesForall ExamplesQuant.
Import ListNotations.

(** ** C01.  As in PropertiesCtx, along histories that assert formulas with universal quantifiers: a check that answers unsat is about a
    problem without solution.  The theory solver prunes quantified constraints with contractors that have inner contexts of their own
    ([prunes_by_contractors]: every pruned box is the answer of such a contractor at some point of its life) and evaluates them with such
    evaluators ([evaluates_by_evaluators]).
    Left out, besides what PropertiesCtx leaves out: quantifiers, if-then-else and Boolean variables inside a quantified formula, variables
    that are not reals in the box of a quantified constraint, formulas whose bounds on the quantified variables contradict each other
    (refuted below), and contractors or evaluators that answer differently when asked about the same box again. *)
Theorem C01_quantified_unsat_sound_partial :
  forall M D fold esub eneg m A L fa fi term pn ev mid precision use_worklist k left_first K pico n ops c answers,
  rc_ok M -> mid_ok mid -> ibex_ok M D L -> eneg_faithful M D eneg -> sqrt_ok M D -> ia_ok M D A -> esub_ok M D esub -> pico_ok pico ->
  prunes_by_contractors M D fold esub eneg m A L fi term pn mid K pico fa -> evaluates_by_evaluators fold esub A mid K pico ev ->
  cx_run fold K pico (solver_seq esub eneg m (ibex_oracles L esub eneg m fa) term pn ev mid precision use_worklist k left_first) mid precision ops (cx_init n) = Some (c, answers) ->
  admissible_q M D fold K n True ops [] (p_empty, []) -> ints_ok use_worklist ops ->
  Forall2 (fun p answer => answer = None -> ~ exists rho, solution M D p rho) (problems ops (p_empty, [])) answers.
Proof.
  exact (fun M D fold esub eneg m A L fa fi term pn ev mid precision wl k lf K pico n ops c a RC Hm HL HN HS HA HD HP HF HE =>
    unsat_quant M D fold esub eneg m A L fa fi term pn mid precision wl RC Hm HL HN HS HA HD K pico HP HF n _ (TQ_seq M D fold esub eneg m A L fa term pn ev mid precision wl RC Hm HL HN HS HA HD K pico HE k lf) ops c a).
Qed.
Print Assumptions C01_quantified_unsat_sound_partial.
Theorem C01_parallel_quantified_unsat_sound_partial :
  forall M D fold esub eneg m A L fa fi term pn ev mid precision use_worklist left_first jobs sched K pico n ops c answers,
  rc_ok M -> mid_ok mid -> ibex_ok M D L -> eneg_faithful M D eneg -> sqrt_ok M D -> ia_ok M D A -> esub_ok M D esub -> pico_ok pico -> jobs <> 0 ->
  prunes_by_contractors M D fold esub eneg m A L fi term pn mid K pico fa -> evaluates_by_evaluators fold esub A mid K pico ev ->
  cx_run fold K pico (solver_par esub eneg m (ibex_oracles L esub eneg m fa) term pn ev mid precision use_worklist left_first jobs sched) mid precision ops (cx_init n) = Some (c, answers) ->
  admissible_q M D fold K n True ops [] (p_empty, []) -> ints_ok use_worklist ops ->
  Forall2 (fun p answer => answer = None -> ~ exists rho, solution M D p rho) (problems ops (p_empty, [])) answers.
Proof.
  exact (fun M D fold esub eneg m A L fa fi term pn ev mid precision wl lf jobs sched K pico n ops c a RC Hm HL HN HS HA HD HP J HF HE =>
    unsat_quant M D fold esub eneg m A L fa fi term pn mid precision wl RC Hm HL HN HS HA HD K pico HP HF n _ (TQ_par M D fold esub eneg m A L fa term pn ev mid precision wl RC Hm HL HN HS HA HD K pico HE lf jobs sched J) ops c a).
Qed.
Print Assumptions C01_parallel_quantified_unsat_sound_partial.
(** x in [0,10] and, for all y: y >= 2 or y <= -1 or x <= 3: delta-sat; then x >= 4: unsat.  The other hypotheses are met as shown in PropertiesCtx. *)
Example C01_quantified_hypotheses_met :
  prunes_by_contractors Mstd stdD nofold plain_sub plain_neg 10 lin lib (fun _ _ => None) default_term 20 ibex_mid kplain brute (fa_ex fa2) /\
  evaluates_by_evaluators nofold plain_sub lin ibex_mid kplain brute (ev_ex fa2) /\ admissible_q Mstd stdD nofold kplain 10 True qops [] (p_empty, []) /\ ints_ok false qops /\
  verdicts (run_ex (q_T fa2) qops) = Some [true; false] /\ verdicts (run_ex (q_P fa2) qops) = Some [true; false].
Proof. exact (conj q_contractors (conj (q_evaluators fa2) (conj q_adm (conj (fun C _ _ _ _ => False_ind _ (Bool.diff_false_true C)) q_runs)))). Qed.
(** x in [0,4] and, for all y: y >= 0 or y <= 1, which is true: unsat. *)
Theorem C01_contradictory_bounds_refuted : exists c a, run_ex (q_T fa3) qops3 = Some (c, a) /\
  ~ Forall2 (fun p answer => answer = None -> ~ exists rho, solution Mstd stdD p rho) (problems qops3 (p_empty, [])) a.
Proof. exact q3_wrong. Qed.
Print Assumptions C01_contradictory_bounds_refuted.

(** ** C29.  The model of a delta-sat answer has the variables the user declared, inside their domains, also when the problem has quantifiers. *)
Theorem C29_quantified_model_partial :
  forall M D fold esub eneg m A L fa fi term pn ev mid precision use_worklist k left_first K pico n ops c answers,
  rc_ok M -> mid_ok mid -> ibex_ok M D L -> eneg_faithful M D eneg -> sqrt_ok M D -> ia_ok M D A -> esub_ok M D esub -> pico_ok pico ->
  prunes_by_contractors M D fold esub eneg m A L fi term pn mid K pico fa -> evaluates_by_evaluators fold esub A mid K pico ev ->
  is_finite precision = true -> (0 < B2R precision)%R ->
  cx_run fold K pico (solver_seq esub eneg m (ibex_oracles L esub eneg m fa) term pn ev mid precision use_worklist k left_first) mid precision ops (cx_init n) = Some (c, answers) ->
  admissible_q M D fold K n True ops [] (p_empty, []) -> ints_ok use_worklist ops -> Forall op_typed ops ->
  Forall2 (fun q answer => model_ok (fst q) (snd q) answer) (checks ops (p_empty, []) []) answers.
Proof.
  exact (fun M D fold esub eneg m A L fa fi term pn ev mid precision wl k lf K pico n ops c a RC Hm HL HN HS HA HD HP HF HE Fp Pp =>
    model_quant M D fold esub eneg m A L fa fi term pn mid precision wl RC Hm HL HN HS HA HD K pico HP HF n _ (TQ_seq M D fold esub eneg m A L fa term pn ev mid precision wl RC Hm HL HN HS HA HD K pico HE k lf)
      (TQ_box_seq M D fold esub eneg m A L fa term pn ev mid precision wl RC Hm HL HN HS HA HD K pico HE k lf) Fp Pp ops c a).
Qed.
Print Assumptions C29_quantified_model_partial.
Theorem C29_parallel_quantified_model_partial :
  forall M D fold esub eneg m A L fa fi term pn ev mid precision use_worklist left_first jobs sched K pico n ops c answers,
  rc_ok M -> mid_ok mid -> ibex_ok M D L -> eneg_faithful M D eneg -> sqrt_ok M D -> ia_ok M D A -> esub_ok M D esub -> pico_ok pico -> jobs <> 0 ->
  prunes_by_contractors M D fold esub eneg m A L fi term pn mid K pico fa -> evaluates_by_evaluators fold esub A mid K pico ev ->
  is_finite precision = true -> (0 < B2R precision)%R ->
  cx_run fold K pico (solver_par esub eneg m (ibex_oracles L esub eneg m fa) term pn ev mid precision use_worklist left_first jobs sched) mid precision ops (cx_init n) = Some (c, answers) ->
  admissible_q M D fold K n True ops [] (p_empty, []) -> ints_ok use_worklist ops -> Forall op_typed ops ->
  Forall2 (fun q answer => model_ok (fst q) (snd q) answer) (checks ops (p_empty, []) []) answers.
Proof.
  exact (fun M D fold esub eneg m A L fa fi term pn ev mid precision wl lf jobs sched K pico n ops c a RC Hm HL HN HS HA HD HP J HF HE Fp Pp =>
    model_quant M D fold esub eneg m A L fa fi term pn mid precision wl RC Hm HL HN HS HA HD K pico HP HF n _ (TQ_par M D fold esub eneg m A L fa term pn ev mid precision wl RC Hm HL HN HS HA HD K pico HE lf jobs sched J)
      (TQ_box_par M D fold esub eneg m A L fa term pn ev mid precision wl RC Hm HL HN HS HA HD K pico HE lf jobs sched) Fp Pp ops c a).
Qed.
Print Assumptions C29_parallel_quantified_model_partial.
Example C29_quantified_hypotheses_met : Forall op_typed qops /\ is_finite half = true /\ map snd (checks qops (p_empty, []) []) = [[vx]; [vx]].
Proof. exact (conj q_typed (conj eq_refl eq_refl)). Qed.
