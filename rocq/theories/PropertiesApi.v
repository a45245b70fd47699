(** * The library interface (C44) and .dr problems (C46) *)
From Coq Require Import ZArith Reals List Bool.
From Flocq Require Import Core.Core IEEE754.BinarySingleNaN.
From Verif Require Import Dbl Syntax Sem SpecForm Scoped Interval MathConv IEval IEvalProofs Contr ContrProofs IbexConv IbexConvProofs Icp IcpProofs IcpPar Filter Theory TheoryUsed ExprAlg SpecAlg
  PredAbs IteElim SpecIte Regular Wff Sat Context SpecCtx CtxStruct SatSem CtxInv CtxTop SpecModel SpecWeak Smt2 Minim SpecMin MinimProofs Dr SpecDr DrProofs Api SpecApi ApiProofs ApiTop StdInterp
  ExamplesForm ExamplesBox ExamplesEval ExamplesContr ExamplesIcp ExamplesIte ExamplesAlg ExamplesCtx ExamplesDr.
Import ListNotations.

(** ** C44.  [api_check] and [api_minimize] (Api.v) are CheckSatisfiability and Minimize; [nx] is the counter of identifiers, [fuel] bounds
    the rounds of the search.

    CheckSatisfiability(f) is the check of a fresh context in which exactly the free variables of f are declared and exactly f is asserted. *)
Theorem C44_check_problem : forall fold K pico T mid f precision nx fuel r, api_check fold K pico T mid f precision nx fuel = Some r -> fresh_ids (fvF f) nx ->
  exists ops c p, cx_run fold K pico (T precision) mid precision ops (cx_init nx) = Some (c, [r]) /\ problems ops (p_empty, []) = [p] /\ poses p (fvF f) [f].
Proof. exact check_history. Qed.
Print Assumptions C44_check_problem.
(** The formula has no (regular) solution over the default domains if the answer is unsat.  The limits of C01 apply. *)
Theorem C44_unsat_partial : forall M D fold esub eneg m A L fa term pn mid precision use_worklist k left_first K pico f nx fuel,
  rc_ok M -> mid_ok mid -> ibex_ok M D L -> eneg_faithful M D eneg -> sqrt_ok M D -> ia_ok M D A -> esub_ok M D esub -> pico_ok pico ->
  fresh_ids (fvF f) nx -> qf_formula f -> ite_exact M D fold K f -> (use_worklist = true -> forall v, In v (fvF f) -> is_int_type (vty v) = false) ->
  api_check fold K pico (fun precision => solver_seq esub eneg m (ibex_oracles L esub eneg m fa) term pn (rel_eval A esub) mid precision use_worklist k left_first) mid f precision nx fuel = Some None ->
  ~ exists rho, satisfies M D f rho.
Proof. exact api_unsat. Qed.
Print Assumptions C44_unsat_partial.
(** If it is a box, every point of it satisfies the formula weakened by the precision of the call.  The limits of C02 apply ([delta_ok], SpecWeak.v). *)
Theorem C44_delta_sat_partial : forall M D fold esub eneg m A L fa term pn mid precision use_worklist k left_first K pico f nx fuel b,
  rc_ok M -> mid_ok mid -> ibex_ok M D L -> eneg_faithful M D eneg -> sqrt_ok M D -> ia_ok M D A -> esub_ok M D esub -> pico_ok pico ->
  is_finite precision = true -> (0 < B2R precision)%R ->
  fresh_ids (fvF f) nx -> qf_formula f -> ite_exact M D fold K f -> (use_worklist = true -> forall v, In v (fvF f) -> is_int_type (vty v) = false) ->
  hasIteF f = false -> unfolded fold f -> f <> FFalse ->
  api_check fold K pico (fun precision => solver_seq esub eneg m (ibex_oracles L esub eneg m fa) term pn (rel_eval A esub) mid precision use_worklist k left_first) mid f precision nx fuel = Some (Some b) ->
  exists p, poses p (fvF f) [f] /\ delta_ok M D mid precision p (Some b).
Proof. exact api_delta. Qed.
Print Assumptions C44_delta_sat_partial.
Example C44_check_example : fresh_ids (fvF af1) 10 /\ fresh_ids (fvF af2) 10 /\ qf_formula af1 /\ qf_formula af2 /\ (forall f, ite_exact Mstd stdD nofold kplain f) /\
  (hasIteF af2 = false /\ unfolded nofold af2 /\ af2 <> FFalse) /\
  verdict (api_check nofold kplain brute ex_TT ibex_mid af1 half 10 20) = Some false /\ verdict (api_check nofold kplain brute ex_TT ibex_mid af2 half 10 20) = Some true.
Proof. exact (conj (proj1 af_ids) (conj (proj1 (proj2 af_ids)) (conj (proj1 af_qf) (conj (proj2 af_qf) (conj plain_ite (conj af2_delta af_runs)))))). Qed.
(** Minimize(g, f) is the check of a fresh context in which exactly the variables of f and g are declared, f is asserted, and the assertion of
    C28 is added: at a feasible point it can be satisfied exactly if no feasible point has a smaller value of g. *)
Theorem C44_minimize_partial : forall fold K pico T mid uf rc fpow n g f precision nx fuel r t, let M := std uf rc in
  api_minimize fold K pico T mid fpow n g f precision nx fuel = (Val (Some r), t) -> Forall (exact M) t -> fresh_ids (fvF f ++ fvE g) nx ->
  exists ops c b mops c', cx_run fold K pico (T precision) mid precision ops (cx_init nx) = Some (c, []) /\ cx_box c = Some b /\
    cx_run fold K pico (T precision) mid precision (ops ++ mops ++ [OCheck fuel]) (cx_init nx) = Some (c', [r]) /\
    (exists p, poses p (fvF f ++ fvE g) [f] /\ forall rest, problems (ops ++ rest) (p_empty, []) = problems rest (p, [])) /\
    (posed M stdD b (sv_vec (cx_stack c)) [g] (cx_next c) -> forall rho, feasible M b (sv_vec (cx_stack c)) rho ->
      ((exists rho1, agree_off (declared_by mops) rho rho1 /\ forall f, In (OAssert f) mops -> holds M f rho1) <-> undominated M b (sv_vec (cx_stack c)) [g] rho)).
Proof. exact api_minimize_ok. Qed.
Print Assumptions C44_minimize_partial.
Example C44_minimize_example : forall fpow, fresh_ids (fvF af2 ++ fvE ex_x) 10 /\ mverdict (api_minimize nofold kplain brute toyT ibex_mid fpow 20 ex_x af2 half 10 20) = Some true.
Proof. exact (fun fpow => conj (proj2 (proj2 af_ids)) (af_min fpow)). Qed.
(** The box argument is written only on success, and then with the answer. *)
Theorem C44_box_written_only_on_success : forall fold K pico T mid f precision nx fuel old b new, api_check_box fold K pico T mid f precision nx fuel old = Some (b, new) ->
  (b = true /\ api_check fold K pico T mid f precision nx fuel = Some (Some new)) \/ (b = false /\ new = old /\ api_check fold K pico T mid f precision nx fuel = Some None).
Proof. exact box_written. Qed.
Print Assumptions C44_box_written_only_on_success.
Theorem C44_minimize_box_written_only_on_success : forall fold K pico T mid fpow n g f precision nx fuel old b new t,
  api_minimize_box fold K pico T mid fpow n g f precision nx fuel old = (Val (Some (b, new)), t) ->
  (b = true /\ api_minimize fold K pico T mid fpow n g f precision nx fuel = (Val (Some (Some new)), t)) \/
  (b = false /\ new = old /\ api_minimize fold K pico T mid fpow n g f precision nx fuel = (Val (Some None), t)).
Proof. exact min_box_written. Qed.
Print Assumptions C44_minimize_box_written_only_on_success.
Example C44_box_example : wrote (api_check_box nofold kplain brute ex_TT ibex_mid af1 half 10 20 box0) box0 = Some (false, false) /\
  wrote (api_check_box nofold kplain brute ex_TT ibex_mid af2 half 10 20 box0) box0 = Some (true, true).
Proof. exact af_boxes. Qed.

(** ** C46.  [dr_calls] and [dr_run] (Dr.v): the calls made by the parser and the driver for a file, and what is printed.  [dval], [dtrue],
    [dr_solution] (SpecDr.v) give the meaning of the file; [evl] is Expression::Evaluate.

    The file declares its variables in order with the bounds written, asserts every constraint once and in order, with its meaning, and hands
    every cost, with its meaning, to Minimize. *)
Theorem C46_calls : forall uf rc fpow n evl d nx ops gs t, let M := std uf rc in dr_calls fpow n evl d nx = (Val (ops, gs), t) -> Forall (exact M) t -> exists bs fs,
  ops = decl_ops bs nx ++ map OAssert fs /\
  Forall2 (fun dd b => bound_is M stdD evl (dr_vars d) nx (dd_lb dd) (fst b) /\ bound_is M stdD evl (dr_vars d) nx (dr_ub dd) (snd b)) (dr_vars d) bs /\
  Forall2 (means_form M stdD (dr_vars d) nx) (dr_ctr d) fs /\ Forall2 (means_exp M stdD (dr_vars d) nx) (dr_cost d) gs.
Proof. exact calls_ok. Qed.
Print Assumptions C46_calls.
(** The problem checked has a solution at given values of the names exactly if these satisfy the file. *)
Theorem C46_problem : forall uf rc fpow n evl d nx ops gs t, let M := std uf rc in dr_calls fpow n evl d nx = (Val (ops, gs), t) -> Forall (exact M) t -> exists bs p,
  Forall2 (fun dd b => bound_is M stdD evl (dr_vars d) nx (dd_lb dd) (fst b) /\ bound_is M stdD evl (dr_vars d) nx (dr_ub dd) (snd b)) (dr_vars d) bs /\
  (forall fuel, problems (ops ++ [OCheck fuel]) (p_empty, []) = [p]) /\
  forall V, (forall f, In f (dr_ctr d) -> fdef M stdD V f) ->
    (dr_solution M stdD d bs V <-> exists rho, well_typed rho /\ dr_reads (dr_vars d) nx V rho /\ (forall v dm, In (v, dm) (p_doms p) -> dm (rho v)) /\
      forall f, In f (p_asserts p) -> defF M stdD f rho /\ holds M f rho).
Proof. exact dr_problem. Qed.
Print Assumptions C46_problem.
Example C46_calls_example : forall uf rc fpow, exists gs t, dr_calls fpow 20 evlx dr1 10 = (Val (dr1_calls, gs), t) /\ length gs = 0 /\ Forall (exact (std uf rc)) t.
Proof. exact (fun uf rc fpow => calls_are_ok uf rc _ _ _ (dr1_poses fpow)). Qed.
(** What is printed is the verdict of that context; Minimize is called exactly if there are costs, with exactly these. *)
Theorem C46_prints_verdict : forall fpow n evl fold K pico T mid precision eval d models nx fuel lines t,
  dr_run fpow n evl fold K pico T mid precision eval d models nx fuel = (Val (Some lines), t) ->
  exists ops gs t0 c mops c' r t1, dr_calls fpow n evl d nx = (Val (ops, gs), t0) /\ cx_run fold K pico T mid precision ops (cx_init nx) = Some (c, []) /\
    (match gs with [] => mops = [] /\ t1 = [] | _ => minimize fpow n gs c = (Val mops, t1) end) /\ t = t0 ++ t1 /\
    cx_run fold K pico T mid precision (ops ++ mops ++ [OCheck fuel]) (cx_init nx) = Some (c', [r]) /\
    lines = match r with
            | None => [OutUnsat]
            | Some m => OutDelta precision :: if models then OutModel m :: map (fun g => OutMin g (mid (ilb (eval g m)) (iub (eval g m)))) gs else []
            end.
Proof. exact solve_ok. Qed.
Print Assumptions C46_prints_verdict.
Example C46_prints_example : forall fpow, kinds (dr_run fpow 20 evlx nofold kplain brute (toyT half) ibex_mid half (fun _ _ => i_all) dr2 true 10 20) = Some [1; 2; 3].
Proof. exact dr2_prints. Qed.
(** If a file without costs prints unsat, it has no (regular) solution.  The limits of C01 apply. *)
Theorem C46_unsat_partial : forall uf rc fpow n evl fold esub eneg m A L fa term pn mid precision use_worklist k left_first K pico eval d models nx fuel t, let M := std uf rc in
  rc_ok M -> mid_ok mid -> ibex_ok M stdD L -> eneg_faithful M stdD eneg -> sqrt_ok M stdD -> ia_ok M stdD A -> esub_ok M stdD esub -> pico_ok pico ->
  dr_cost d = [] -> dr_run fpow n evl fold K pico (solver_seq esub eneg m (ibex_oracles L esub eneg m fa) term pn (rel_eval A esub) mid precision use_worklist k left_first) mid precision eval d models nx fuel = (Val (Some [OutUnsat]), t) ->
  Forall (exact M) t -> (forall ops gs t', dr_calls fpow n evl d nx = (Val (ops, gs), t') -> admissible M stdD fold K nx (ops ++ [OCheck fuel]) [] (p_empty, [])) ->
  exists bs, Forall2 (fun dd b => bound_is M stdD evl (dr_vars d) nx (dd_lb dd) (fst b) /\ bound_is M stdD evl (dr_vars d) nx (dr_ub dd) (snd b)) (dr_vars d) bs /\
  ~ exists V, dr_solution M stdD d bs V /\ forall rho ops gs t' f, dr_reads (dr_vars d) nx V rho -> dr_calls fpow n evl d nx = (Val (ops, gs), t') -> In (OAssert f) ops -> regular M stdD f rho.
Proof. exact dr_unsat_printed. Qed.
Print Assumptions C46_unsat_partial.
Example C46_unsat_example : forall fpow fuel, calls_are (dr_calls fpow 20 evlx dr1 10) dr1_calls 0 = true /\ admissible Mstd stdD nofold kplain 10 (dr1_calls ++ [OCheck fuel]) [] (p_empty, []) /\
  kinds (dr_run fpow 20 evlx nofold kplain brute (ex_TT half) ibex_mid half (fun _ _ => i_all) dr1 true 10 20) = Some [0].
Proof. exact (fun fpow fuel => conj (dr1_poses fpow) (conj (dr1_adm fuel) (dr1_prints fpow))). Qed.
(** Decimals are the nearest doubles, and terms without variables are computed in doubles: 0.3 - 0.2 = 0.1 is unsat. *)
Theorem C46_decimals_refuted : forall fpow, (forall z, In z [1; 2; 3]%Z -> B2R (tenth z) = round radix2 (SpecFloat.fexp prec64 emax64) (round_mode mode_NE) (IZR z / 10)) /\
  dr_ctr dr3 = [DRel DEq (DSub (DNum (tenth 3)) (DNum (tenth 2))) (DNum (tenth 1))] /\
  exists t, dr_run fpow 20 evlx nofold kplain brute (ex_TT half) ibex_mid half (fun _ _ => i_all) dr3 true 10 20 = (Val (Some [OutUnsat]), t).
Proof. exact (fun fpow => conj tenth_nearest (conj eq_refl (unsat_lines _ (dr3_unsat fpow)))). Qed.
Print Assumptions C46_decimals_refuted.
