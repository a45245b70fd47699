(** * C01 for SMT-LIB scripts with universal quantifiers *)
From Coq Require Import ZArith Reals List Bool.
From Flocq Require Import IEEE754.BinarySingleNaN.
From Verif Require Import Dbl Syntax Sem SpecForm Scoped Context Interval MathConv IEval IEvalProofs Contr ContrProofs IbexConv IbexConvProofs Icp IcpProofs IcpPar Filter Theory TheoryUsed
  IteElim SpecIte Regular Wff Sat SpecCtx SpecModel CtxStruct SatSem CdclProofs CtxInv CtxTop Forall SpecForall SpecQuant QuantTop
  StdInterp ExprAlg SpecAlg Smt2 SpecSmt2 Smt2Sound ExamplesForm ExamplesBox ExamplesEval ExamplesContr ExamplesIcp ExamplesIte ExamplesCtx ExamplesForall ExamplesQuant ExamplesSmt2 ExamplesSmt2Q.
Import ListNotations.
Definition increasing (alloc : nat -> nat) : Prop := forall i j, (i < j)%nat -> (alloc i < alloc j)%nat.

(** A script whose assertions may have universal quantifiers ([forall] over Booleans is expanded, over reals it is handed to the solver, see C37):
    if a (check-sat) answers unsat, the assertions in force there are not all true.  [V] gives the values of the declared constants.
    Left out: what C01_quantified_unsat_sound_partial and C36_scripts_partial leave out. *)
Theorem C01_quantified_script_unsat_sound_partial :
  forall uf rc fpow n alloc V cs s tr fold esub eneg m A L fa fi term pn ev mid precision use_worklist k left_first K pico n0 c answers,
  let M := std uf rc in let ops := rev (d_ops s) in
  increasing alloc -> names_ok cs ([], [], []) -> script fpow n alloc cs drv0 = (Val s, tr) -> Forall (exact M) tr -> Forall plain_cmd cs -> Forall kept (d_notes s) ->
  z_defd M stdD V cs (s_init, []) -> s_sorted V cs 0 -> regular_at uf rc V ops ->
  rc_ok M -> mid_ok mid -> ibex_ok M stdD L -> eneg_faithful M stdD eneg -> sqrt_ok M stdD -> ia_ok M stdD A -> esub_ok M stdD esub -> pico_ok pico ->
  prunes_by_contractors M stdD fold esub eneg m A L fi term pn mid K pico fa -> evaluates_by_evaluators fold esub A mid K pico ev ->
  cx_run fold K pico (solver_seq esub eneg m (ibex_oracles L esub eneg m fa) term pn ev mid precision use_worklist k left_first) mid precision ops (cx_init n0) = Some (c, answers) ->
  admissible_q M stdD fold K n0 True ops [] (p_empty, []) -> ints_ok use_worklist ops ->
  Forall2 (fun F a => a = None -> ~ forall P : Prop, In P F -> P) (z_checks M stdD V cs (s_init, [])) answers.
Proof.
  exact (fun uf rc fpow n alloc V cs s tr fold esub eneg m A L fa fi term pn ev mid precision wl k lf K pico n0 c a Hal Hn E Ht Hp Hk Hd Hs Hr RC Hm HL HN HS HA HD HP HF HE Er Ad Io =>
    script_unsat_scoped uf rc fpow n alloc Hal V cs s tr a Hn E Ht Hp Hk Hd Hs Hr
      (unsat_quant (std uf rc) stdD fold esub eneg m A L fa fi term pn mid precision wl RC Hm HL HN HS HA HD K pico HP HF n0 _
        (TQ_seq (std uf rc) stdD fold esub eneg m A L fa term pn ev mid precision wl RC Hm HL HN HS HA HD K pico HE k lf) _ c a Er Ad Io)).
Qed.
Print Assumptions C01_quantified_script_unsat_sound_partial.
Theorem C01_parallel_quantified_script_unsat_sound_partial :
  forall uf rc fpow n alloc V cs s tr fold esub eneg m A L fa fi term pn ev mid precision use_worklist left_first jobs sched K pico n0 c answers,
  let M := std uf rc in let ops := rev (d_ops s) in
  increasing alloc -> names_ok cs ([], [], []) -> script fpow n alloc cs drv0 = (Val s, tr) -> Forall (exact M) tr -> Forall plain_cmd cs -> Forall kept (d_notes s) ->
  z_defd M stdD V cs (s_init, []) -> s_sorted V cs 0 -> regular_at uf rc V ops ->
  rc_ok M -> mid_ok mid -> ibex_ok M stdD L -> eneg_faithful M stdD eneg -> sqrt_ok M stdD -> ia_ok M stdD A -> esub_ok M stdD esub -> pico_ok pico -> jobs <> 0 ->
  prunes_by_contractors M stdD fold esub eneg m A L fi term pn mid K pico fa -> evaluates_by_evaluators fold esub A mid K pico ev ->
  cx_run fold K pico (solver_par esub eneg m (ibex_oracles L esub eneg m fa) term pn ev mid precision use_worklist left_first jobs sched) mid precision ops (cx_init n0) = Some (c, answers) ->
  admissible_q M stdD fold K n0 True ops [] (p_empty, []) -> ints_ok use_worklist ops ->
  Forall2 (fun F a => a = None -> ~ forall P : Prop, In P F -> P) (z_checks M stdD V cs (s_init, [])) answers.
Proof.
  exact (fun uf rc fpow n alloc V cs s tr fold esub eneg m A L fa fi term pn ev mid precision wl lf jobs sched K pico n0 c a Hal Hn E Ht Hp Hk Hd Hs Hr RC Hm HL HN HS HA HD HP J HF HE Er Ad Io =>
    script_unsat_scoped uf rc fpow n alloc Hal V cs s tr a Hn E Ht Hp Hk Hd Hs Hr
      (unsat_quant (std uf rc) stdD fold esub eneg m A L fa fi term pn mid precision wl RC Hm HL HN HS HA HD K pico HP HF n0 _
        (TQ_par (std uf rc) stdD fold esub eneg m A L fa term pn ev mid precision wl RC Hm HL HN HS HA HD K pico HE lf jobs sched J) _ c a Er Ad Io)).
Qed.
Print Assumptions C01_parallel_quantified_script_unsat_sound_partial.
(** (declare-fun x () Real [0,10]) (assert (forall ((y Real)) (or (>= y 2) (<= y -1) (<= x 3)))) (check-sat): delta-sat;
    (assert (>= x 4)) (check-sat): unsat.  At x = 3 all hypotheses about values are met. *)
Example C01_quantified_script_example : forall fpow, increasing alq /\
  (exists s t, script fpow 20 alq script10 drv0 = (Val s, t) /\ rev (d_ops s) = qcalls /\ Forall (exact Mstd) t /\ Forall kept (d_notes s) /\
    Forall plain_cmd script10 /\ s_sorted vals10 script10 0 /\ names_ok script10 ([], [], []) /\ z_defd Mstd stdD vals10 script10 (s_init, []) /\ regular_at (fun _ _ => 0%R) (fun lb _ => B2R lb) vals10 qcalls) /\
  prunes_by_contractors Mstd stdD nofold plain_sub plain_neg 10 lin lib (fun _ _ => None) default_term 20 ibex_mid kplain brute (fa_ex fa2) /\
  evaluates_by_evaluators nofold plain_sub lin ibex_mid kplain brute (ev_ex fa2) /\ admissible_q Mstd stdD nofold kplain 0 True qcalls [] (p_empty, []) /\
  verdicts (run_ex0 (q_T fa2) qcalls) = Some [true; false] /\ verdicts (run_ex0 (q_P fa2) qcalls) = Some [true; false].
Proof.
  exact (fun fpow => conj alq_mono (conj (proj2 (script10_meets (fun _ _ => 0%R) (fun lb _ => B2R lb) fpow)) (conj q_contractors (conj (q_evaluators fa2) (conj qcalls_adm qcalls_runs))))).
Qed.
