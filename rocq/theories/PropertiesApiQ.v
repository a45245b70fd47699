(** * Quantified formulas given to the library interface (C44), scripts solved in parallel (C01) *)
From Coq Require Import ZArith Reals List Bool.
From Flocq Require Import IEEE754.BinarySingleNaN.
From Verif Require Import Dbl Syntax Sem SpecForm Scoped Context Interval MathConv IEval IEvalProofs Contr ContrProofs IbexConv IbexConvProofs Icp IcpProofs IcpPar Filter Theory TheoryUsed
  IteElim SpecIte Regular Wff Sat SpecCtx SpecModel CtxStruct SatSem CdclProofs CtxInv CtxTop Forall SpecForall SpecQuant QuantTop Api SpecApi SpecApiQ ApiProofs ApiTop ApiQuant
  StdInterp ExprAlg SpecAlg Smt2 SpecSmt2 Smt2Sound ExamplesForm ExamplesBox ExamplesEval ExamplesContr ExamplesIcp ExamplesIte ExamplesCtx ExamplesForall ExamplesQuant ExamplesSmt2 ExamplesDr ExamplesApiQ.
Import ListNotations.
Definition increasing (alloc : nat -> nat) : Prop := forall i j, (i < j)%nat -> (alloc i < alloc j)%nat.

(** ** C44.  A formula with universal quantifiers for which CheckSatisfiability answers unsat has no (regular) solution over the default domains.
    Left out: what C01_quantified_unsat_sound_partial leaves out. *)
Theorem C44_quantified_unsat_partial : forall M D fold esub eneg m A L fa fi term pn ev mid precision use_worklist k left_first K pico f nx fuel,
  rc_ok M -> mid_ok mid -> ibex_ok M D L -> eneg_faithful M D eneg -> sqrt_ok M D -> ia_ok M D A -> esub_ok M D esub -> pico_ok pico ->
  prunes_by_contractors M D fold esub eneg m A L fi term pn mid K pico fa -> evaluates_by_evaluators fold esub A mid K pico ev ->
  fresh_ids (fvF f) nx -> q_formula nx f -> ite_exact M D fold K f -> (use_worklist = true -> forall v, In v (fvF f) -> is_int_type (vty v) = false) ->
  api_check fold K pico (fun precision => solver_seq esub eneg m (ibex_oracles L esub eneg m fa) term pn ev mid precision use_worklist k left_first) mid f precision nx fuel = Some None ->
  ~ exists rho, satisfies M D f rho.
Proof.
  exact (fun M D fold esub eneg m A L fa fi term pn ev mid precision wl k lf K pico f nx fuel RC Hm HL HN HS HA HD HP HF HE Hid Hq Hi Hw =>
    api_unsat_q M D fold K pico mid f precision nx fuel (fun precision => solver_seq esub eneg m (ibex_oracles L esub eneg m fa) term pn ev mid precision wl k lf) Hid (fun ops c a Er Eo =>
      unsat_quant M D fold esub eneg m A L fa fi term pn mid precision wl RC Hm HL HN HS HA HD K pico HP HF nx _ (TQ_seq M D fold esub eneg m A L fa term pn ev mid precision wl RC Hm HL HN HS HA HD K pico HE k lf)
        ops c a Er (eq_ind_r (fun o => admissible_q M D fold K nx True o [] (p_empty, [])) (check_adm_q M D fold K f nx fuel Hid Hq Hi) Eo) (eq_ind_r (ints_ok wl) (check_ints wl f nx fuel Hid Hw) Eo))).
Qed.
Print Assumptions C44_quantified_unsat_partial.
Theorem C44_parallel_quantified_unsat_partial : forall M D fold esub eneg m A L fa fi term pn ev mid precision use_worklist left_first jobs sched K pico f nx fuel,
  rc_ok M -> mid_ok mid -> ibex_ok M D L -> eneg_faithful M D eneg -> sqrt_ok M D -> ia_ok M D A -> esub_ok M D esub -> pico_ok pico -> jobs <> 0 ->
  prunes_by_contractors M D fold esub eneg m A L fi term pn mid K pico fa -> evaluates_by_evaluators fold esub A mid K pico ev ->
  fresh_ids (fvF f) nx -> q_formula nx f -> ite_exact M D fold K f -> (use_worklist = true -> forall v, In v (fvF f) -> is_int_type (vty v) = false) ->
  api_check fold K pico (fun precision => solver_par esub eneg m (ibex_oracles L esub eneg m fa) term pn ev mid precision use_worklist left_first jobs sched) mid f precision nx fuel = Some None ->
  ~ exists rho, satisfies M D f rho.
Proof.
  exact (fun M D fold esub eneg m A L fa fi term pn ev mid precision wl lf jobs sched K pico f nx fuel RC Hm HL HN HS HA HD HP J HF HE Hid Hq Hi Hw =>
    api_unsat_q M D fold K pico mid f precision nx fuel (fun precision => solver_par esub eneg m (ibex_oracles L esub eneg m fa) term pn ev mid precision wl lf jobs sched) Hid (fun ops c a Er Eo =>
      unsat_quant M D fold esub eneg m A L fa fi term pn mid precision wl RC Hm HL HN HS HA HD K pico HP HF nx _ (TQ_par M D fold esub eneg m A L fa term pn ev mid precision wl RC Hm HL HN HS HA HD K pico HE lf jobs sched J)
        ops c a Er (eq_ind_r (fun o => admissible_q M D fold K nx True o [] (p_empty, [])) (check_adm_q M D fold K f nx fuel Hid Hq Hi) Eo) (eq_ind_r (ints_ok wl) (check_ints wl f nx fuel Hid Hw) Eo))).
Qed.
Print Assumptions C44_parallel_quantified_unsat_partial.
(** 4 <= x <= 10 (0 <= x <= 10) and for all y: y >= 2 or y <= -1 or x <= 3: unsat (delta-sat). *)
Example C44_quantified_example : prunes_by_contractors Mstd stdD nofold plain_sub plain_neg 10 lin lib (fun _ _ => None) default_term 20 ibex_mid kplain brute (fa_ex fa2) /\
  evaluates_by_evaluators nofold plain_sub lin ibex_mid kplain brute (ev_ex fa2) /\ (fresh_ids (fvF aq1) 10 /\ fresh_ids (fvF aq2) 10) /\ (q_formula 10 aq1 /\ q_formula 10 aq2) /\ (forall f, ite_exact Mstd stdD nofold kplain f) /\
  verdict (api_check nofold kplain brute (q_TT fa2) ibex_mid aq1 half 10 20) = Some false /\ verdict (api_check nofold kplain brute (q_TT fa2) ibex_mid aq2 half 10 20) = Some true /\
  verdict (api_check nofold kplain brute (q_PP fa2) ibex_mid aq1 half 10 20) = Some false.
Proof. exact (conj q_contractors (conj (q_evaluators fa2) (conj aq_ids (conj aq_q (conj plain_ite aq_runs))))). Qed.

(** ** C01: as C01_script_unsat_sound_partial, for the parallel solver under every schedule. *)
Theorem C01_parallel_script_unsat_sound_partial :
  forall uf rc fpow n alloc V cs s tr fold esub eneg m A L fa term pn mid precision use_worklist left_first jobs sched K pico n0 c answers,
  let M := std uf rc in let ops := rev (d_ops s) in
  increasing alloc -> names_ok cs ([], [], []) -> script fpow n alloc cs drv0 = (Val s, tr) -> Forall (exact M) tr -> Forall plain_cmd cs -> Forall kept (d_notes s) ->
  z_defd M stdD V cs (s_init, []) -> s_sorted V cs 0 -> regular_at uf rc V ops ->
  rc_ok M -> mid_ok mid -> ibex_ok M stdD L -> eneg_faithful M stdD eneg -> sqrt_ok M stdD -> ia_ok M stdD A -> esub_ok M stdD esub -> pico_ok pico -> jobs <> 0 ->
  cx_run fold K pico (solver_par esub eneg m (ibex_oracles L esub eneg m fa) term pn (rel_eval A esub) mid precision use_worklist left_first jobs sched) mid precision ops (cx_init n0) = Some (c, answers) ->
  admissible M stdD fold K n0 ops [] (p_empty, []) -> ints_ok use_worklist ops ->
  Forall2 (fun F a => a = None -> ~ forall P : Prop, In P F -> P) (z_checks M stdD V cs (s_init, [])) answers.
Proof.
  exact (fun uf rc fpow n alloc V cs s tr fold esub eneg m A L fa term pn mid precision wl lf jobs sched K pico n0 c a Hal Hn E Ht Hp Hk Hd Hs Hr RC Hm HL HN HS HA HD HP J Er Ad Io =>
    script_unsat_scoped uf rc fpow n alloc Hal V cs s tr a Hn E Ht Hp Hk Hd Hs Hr
      (unsat_top (std uf rc) stdD fold mid precision wl RC K pico n0 _ HP (T_par (std uf rc) stdD fold esub eneg m A L fa term pn mid precision wl RC Hm HL HN HS HA HD lf jobs sched J) _ c a Er Ad Io)).
Qed.
Print Assumptions C01_parallel_script_unsat_sound_partial.
Example C01_parallel_script_example : admissible Mstd stdD nofold kplain 10 calls1 [] (p_empty, []) /\ verdicts (run_ex ex_P calls1) = Some [false; true].
Proof. exact (conj calls1_adm script1_runs_par). Qed.
