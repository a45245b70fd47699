(** * C02 for SMT-LIB scripts *)
From Coq Require Import ZArith Reals List Bool.
From Flocq Require Import IEEE754.BinarySingleNaN.
From Verif Require Import Dbl Syntax Sem SpecForm Scoped Interval MathConv IEval IEvalProofs Contr ContrProofs IbexConv IbexConvProofs Icp IcpPar Filter Theory
  IteElim SpecIte Regular Wff Sat Context SpecCtx SatSem CtxTop SpecModel SpecWeak CtxModelTop CtxDelta CtxDeltaInv StdInterp ExprAlg SpecAlg Smt2 SpecSmt2 SpecSmtWeak SmtWeak
  ExamplesForm ExamplesBox ExamplesEval ExamplesContr ExamplesIcp ExamplesIte ExamplesCtx ExamplesModel ExamplesDelta ExamplesSmt2 ExamplesSmtWeak.
Import ListNotations.
Definition increasing (alloc : nat -> nat) : Prop := forall i j, (i < j)%nat -> (alloc i < alloc j)%nat.

(** If a (check-sat) of a script answers delta-sat, every assignment in the accepted box satisfies the delta-weakening of every
    assertion in force there ([sweak], SpecSmtWeak.v, defined on the terms of the script).
    Left out: what C02_delta_sat_sound_partial leaves out, assertions with let, and what is inside quantifiers and calls of Boolean functions. *)
Theorem C02_script_delta_sat_sound_partial :
  forall uf rc fpow n alloc cs s tr fold esub eneg m A L fa term pn mid precision use_worklist k left_first K pico n0 c answers,
  let M := std uf rc in let ops := rev (d_ops s) in
  increasing alloc -> script fpow n alloc cs drv0 = (Val s, tr) -> Forall (exact M) tr -> Forall plain_cmd cs -> Forall kept (d_notes s) ->
  rc_ok M -> mid_ok mid -> ibex_ok M stdD L -> eneg_faithful M stdD eneg -> sqrt_ok M stdD -> ia_ok M stdD A -> esub_ok M stdD esub -> pico_ok pico ->
  is_finite precision = true -> (0 < B2R precision)%R ->
  cx_run fold K pico (solver_seq esub eneg m (ibex_oracles L esub eneg m fa) term pn (rel_eval A esub) mid precision use_worklist k left_first) mid precision ops (cx_init n0) = Some (c, answers) ->
  admissible M stdD fold K n0 ops [] (p_empty, []) -> ints_ok use_worklist ops -> delta_ops fold ops (p_empty, []) ->
  Forall2 (script_delta_ok fpow n alloc M stdD mid precision cs ops) (in_force cs [] [] []) answers.
Proof.
  exact (fun uf rc fpow n alloc cs s tr fold esub eneg m A L fa term pn mid precision wl k lf K pico n0 c a Hal E Ht Hp Hk RC Hm HL HN HS HA HD HP Fp Pp Er Ad Io De =>
    script_weak uf rc fpow n alloc Hal fold mid precision K n0 Pp cs s tr a E Ht Hp Hk Ad
      (delta_top (std uf rc) stdD fold mid precision wl RC Hm K pico n0 _ HP (T_seq (std uf rc) stdD fold esub eneg m A L fa term pn mid precision wl RC Hm HL HN HS HA HD k lf)
        (T_box_seq (std uf rc) stdD fold esub eneg m A L fa term pn mid precision wl RC Hm HL HN HS HA HD k lf)
        (T_weak_seq (std uf rc) stdD fold esub eneg m A L fa term pn mid precision wl RC Hm HL HN HS HA HD Fp Pp k lf) Fp Pp _ c a Er Ad Io De)).
Qed.
Print Assumptions C02_script_delta_sat_sound_partial.
Theorem C02_parallel_script_delta_sat_sound_partial :
  forall uf rc fpow n alloc cs s tr fold esub eneg m A L fa term pn mid precision use_worklist left_first jobs sched K pico n0 c answers,
  let M := std uf rc in let ops := rev (d_ops s) in
  increasing alloc -> script fpow n alloc cs drv0 = (Val s, tr) -> Forall (exact M) tr -> Forall plain_cmd cs -> Forall kept (d_notes s) ->
  rc_ok M -> mid_ok mid -> ibex_ok M stdD L -> eneg_faithful M stdD eneg -> sqrt_ok M stdD -> ia_ok M stdD A -> esub_ok M stdD esub -> pico_ok pico -> jobs <> 0 ->
  is_finite precision = true -> (0 < B2R precision)%R ->
  cx_run fold K pico (solver_par esub eneg m (ibex_oracles L esub eneg m fa) term pn (rel_eval A esub) mid precision use_worklist left_first jobs sched) mid precision ops (cx_init n0) = Some (c, answers) ->
  admissible M stdD fold K n0 ops [] (p_empty, []) -> ints_ok use_worklist ops -> delta_ops fold ops (p_empty, []) ->
  Forall2 (script_delta_ok fpow n alloc M stdD mid precision cs ops) (in_force cs [] [] []) answers.
Proof.
  exact (fun uf rc fpow n alloc cs s tr fold esub eneg m A L fa term pn mid precision wl lf jobs sched K pico n0 c a Hal E Ht Hp Hk RC Hm HL HN HS HA HD HP J Fp Pp Er Ad Io De =>
    script_weak uf rc fpow n alloc Hal fold mid precision K n0 Pp cs s tr a E Ht Hp Hk Ad
      (delta_top (std uf rc) stdD fold mid precision wl RC Hm K pico n0 _ HP (T_par (std uf rc) stdD fold esub eneg m A L fa term pn mid precision wl RC Hm HL HN HS HA HD lf jobs sched J)
        (T_box_par (std uf rc) stdD fold esub eneg m A L fa term pn mid precision wl RC Hm HL HN HS HA HD lf jobs sched)
        (T_weak_par (std uf rc) stdD fold esub eneg m A L fa term pn mid precision wl RC Hm HL HN HS HA HD Fp Pp lf jobs sched) Fp Pp _ c a Er Ad Io De)).
Qed.
Print Assumptions C02_parallel_script_delta_sat_sound_partial.
(** x + n >= 8 or b, not b; x + n <= 7 inside a push: unsat inside, delta-sat after the pop, where two assertions are in force. *)
Example C02_script_example : forall fpow, increasing alloc1 /\
  (exists s t, script fpow 20 alloc1 script11 drv0 = (Val s, t) /\ rev (d_ops s) = calls11 /\ Forall (exact Mstd) t /\ Forall kept (d_notes s) /\ Forall plain_cmd script11 /\
    s_defd Mstd stdD vals1 script11 s_init /\ s_sorted vals1 script11 0 /\ exists rho, reads vals1 calls11 rho) /\
  admissible Mstd stdD nofold kplain 10 calls11 [] (p_empty, []) /\ delta_ops nofold calls11 (p_empty, []) /\ map (@length item) (in_force script11 [] [] []) = [3; 2] /\
  verdicts (run_ex ex_T calls11) = Some [false; true] /\ verdicts (run_ex ex_P calls11) = Some [false; true].
Proof.
  exact (fun fpow => conj alloc1_mono (conj (script11_meets (fun _ _ => 0%R) (fun lb _ => B2R lb) fpow) (conj calls11_adm (conj calls11_delta (conj eq_refl script11_runs))))).
Qed.
(** A declared domain can be empty: (declare-fun x () Real [0,1]) (declare-fun y () Real [2,1]) (check-sat) answers delta-sat, though no
    assignment respects the domains. *)
Theorem C02_empty_domain_refuted : forall uf rc fpow, exists s t c m p, script fpow 20 alloc1 script12 drv0 = (Val s, t) /\ Forall (exact (std uf rc)) t /\
  run_ex ex_T (rev (d_ops s)) = Some (c, [Some m]) /\ problems (rev (d_ops s)) (p_empty, []) = [p] /\ forall rho : env, ~ forall v d, In (v, d) (p_doms p) -> d (rho v).
Proof. exact empty_domain. Qed.
Print Assumptions C02_empty_domain_refuted.
