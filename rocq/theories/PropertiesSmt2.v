(** * Properties of the SMT-LIB front end (C34, C35, C36, C37, C38, C43, and C01 for scripts)

    [script] (Smt2.v) runs a script: it builds the formulas and makes the calls [rev (d_ops s)] on the
    context.  [den], [s_checks] and [z_checks] (SpecSmt2.v) give the meaning of terms and scripts directly on the syntax.
    [V k] is the value of the k-th declared symbol; [reads V ops rho]: [rho] gives these values to the
    variables of the solver.  [exact M s] (SpecAlg.v): an assumption recorded by the expression builder holds.
    [fpow] is std::pow, [n] bounds recursion, [alloc] hands out the variable identifiers. *)
From Coq Require Import ZArith Reals Lra List Bool.
From Flocq Require Import IEEE754.BinarySingleNaN.
From Verif Require Import Dbl Syntax Sem SemProofs FormulaCons Interval IEval IEvalProofs StdInterp MathConv ExprAlg SpecAlg ExprAlgProofs Contr ContrTop IbexConv IbexConvProofs Icp Theory
  TheoryTop TheoryUsed ExplainProofs IteElim SpecIte Regular Wff Sat Context SpecCtx CtxStruct SatSem CdclProofs CtxInv CtxTop SatReach SpecModel
  Smt2 SpecSmt2 SmtOcc Smt2Proofs Smt2Top Smt2Sound Smt2Out SpecOut Smt2OutProofs
  ExamplesForm ExamplesBox ExamplesEval ExamplesContr ExamplesIcp ExamplesIte ExamplesAlg ExamplesCtx ExamplesSmt2 ExamplesOut.
Import ListNotations.
Local Notation R := Rdefinitions.R.
Definition increasing (alloc : nat -> nat) : Prop := forall i j, (i < j)%nat -> (alloc i < alloc j)%nat.

(** ** C34: every operator has its standard meaning *)
Theorem C34_terms_partial : forall uf rc fpow n alloc V cs s tr t tm s' tr', increasing alloc ->
  script fpow n alloc cs drv0 = (Val s, tr) -> Forall (exact (std uf rc)) tr -> Forall plain_cmd cs -> Forall kept (d_notes s') ->
  s_defd (std uf rc) stdD V cs s_init -> s_sorted V cs 0 ->
  elab fpow n alloc t s = (Val (tm, s'), tr') -> Forall (exact (std uf rc)) tr' -> plain_term t -> has_let t = false ->
  defd (std uf rc) (ss_funs (s_run (std uf rc) stdD V cs s_init)) stdD (ss_fdef (s_run (std uf rc) stdD V cs s_init)) t (ss_env (s_run (std uf rc) stdD V cs s_init)) ->
  forall rho, reads V (rev (d_ops s)) rho ->
  term_value (std uf rc) tm rho = den (std uf rc) (ss_funs (s_run (std uf rc) stdD V cs s_init)) t (ss_env (s_run (std uf rc) stdD V cs s_init)) /\ term_def (std uf rc) stdD tm rho.
Proof. exact (fun uf rc fpow n alloc V cs s tr t tm s' tr' H => term_ok uf rc fpow n alloc H V cs s tr t tm s' tr'). Qed.
Print Assumptions C34_terms_partial.
Example C34_example : forall uf rc fpow, increasing alloc1 /\
  exists s tr tm s' tr', script fpow 20 alloc1 script9 drv0 = (Val s, tr) /\ Forall (exact (std uf rc)) tr /\ Forall plain_cmd script9 /\ Forall kept (d_notes s') /\
    s_defd (std uf rc) stdD vals1 script9 s_init /\ s_sorted vals1 script9 0 /\ elab fpow 20 alloc1 term9 s = (Val (tm, s'), tr') /\ Forall (exact (std uf rc)) tr' /\ plain_term term9 /\ has_let term9 = false /\
    (let S0 := s_run (std uf rc) stdD vals1 script9 s_init in defd (std uf rc) (ss_funs S0) stdD (ss_fdef S0) term9 (ss_env S0)) /\ exists rho, reads vals1 (rev (d_ops s)) rho.
Proof. exact term9_meets. Qed.
(** The bounds of a quantified variable that does not occur in the body become constraints on a free variable: a false assertion is satisfiable. *)
Theorem C34_lost_bounds_refuted : forall uf rc fpow, exists s t p, script fpow 20 al script2 drv0 = (Val s, t) /\ Forall (exact (std uf rc)) t /\ problems (rev (d_ops s)) (p_empty, []) = [p] /\
  satisfiable (std uf rc) stdD p /\ forall V, ~ facts_of (std uf rc) stdD V script2.
Proof. exact lost_bounds. Qed.
Print Assumptions C34_lost_bounds_refuted.
(** A quantifier over an empty range is not true. *)
Theorem C34_empty_bounds_refuted : forall uf rc fpow, exists s t p, script fpow 20 al script3 drv0 = (Val s, t) /\ Forall (exact (std uf rc)) t /\ problems (rev (d_ops s)) (p_empty, []) = [p] /\
  ~ satisfiable (std uf rc) stdD p /\ forall V, facts_of (std uf rc) stdD V script3.
Proof. exact empty_bounds. Qed.
Print Assumptions C34_empty_bounds_refuted.

(** ** C35: define-fun *)
Theorem C35_expansion_partial : forall uf rc fpow n alloc V cs f p0 ps so t s tr l tm s' tr', increasing alloc ->
  script fpow n alloc (cs ++ [KDefine f (p0 :: ps) so t]) drv0 = (Val s, tr) -> Forall (exact (std uf rc)) tr ->
  Forall plain_cmd (cs ++ [KDefine f (p0 :: ps) so t]) -> Forall kept (d_notes s') ->
  s_defd (std uf rc) stdD V (cs ++ [KDefine f (p0 :: ps) so t]) s_init -> s_sorted V (cs ++ [KDefine f (p0 :: ps) so t]) 0 ->
  elab fpow n alloc (SApp f l) s = (Val (tm, s'), tr') -> Forall (exact (std uf rc)) tr' -> Forall plain_term l -> existsb has_let l = false ->
  let S0 := s_run (std uf rc) stdD V cs s_init in let S1 := s_run (std uf rc) stdD V (cs ++ [KDefine f (p0 :: ps) so t]) s_init in
  let vals := map (fun a => den (std uf rc) (ss_funs S1) a (ss_env S0)) l in
  Forall (fun a => defd (std uf rc) (ss_funs S1) stdD (ss_fdef S1) a (ss_env S0)) l ->
  defd (std uf rc) (ss_funs S0) stdD (ss_fdef S0) t (args_env (p0 :: ps) vals (ss_env S0)) ->
  forall rho, reads V (rev (d_ops s)) rho ->
  term_value (std uf rc) tm rho = den (std uf rc) (ss_funs S0) t (args_env (p0 :: ps) vals (ss_env S0)) /\ term_def (std uf rc) stdD tm rho.
Proof. exact (fun uf rc fpow n alloc V cs f p0 ps so t s tr l tm s' tr' H => app_expands uf rc fpow n alloc H V cs f p0 ps so t s tr l tm s' tr'). Qed.
Print Assumptions C35_expansion_partial.
(** A call that is accepted has the right number of arguments, each Boolean exactly when the parameter is. *)
Theorem C35_arity_and_sorts_partial : forall fpow n alloc cs f p0 ps so t s tr l tm s' tr',
  script fpow n alloc (cs ++ [KDefine f (p0 :: ps) so t]) drv0 = (Val s, tr) -> elab fpow n alloc (SApp f l) s = (Val (tm, s'), tr') ->
  length l = length (p0 :: ps) /\ exists args s1 t1, elabs (elab fpow n alloc) l s = (Val (args, s1), t1) /\ Forall2 (fun a p => is_form a = true <-> snd p = SoBool) args (p0 :: ps) /\
    (is_form tm = true <-> so = SoBool).
Proof. exact app_rejects. Qed.
Print Assumptions C35_arity_and_sorts_partial.
(** An Int parameter accepts 1/2. *)
Theorem C35_int_parameter_refuted : forall uf rc fpow, exists s t, script fpow 20 al script8 drv0 = (Val s, t) /\ Forall (exact (std uf rc)) t /\
  In (KDefine 5 [(0%nat, SoInt)] SoReal (SSym 0)) script8 /\ forall FN E, ~ of_sort SoInt (den (std uf rc) FN (SAri ADiv (num 1) [num 2]) E).
Proof. exact int_param. Qed.
Print Assumptions C35_int_parameter_refuted.

(** ** C36: let.  Every check has exactly the solutions of the script, with let bindings read as local definitions. *)
Theorem C36_scripts_partial : forall uf rc fpow n alloc V cs s tr, increasing alloc ->
  script fpow n alloc cs drv0 = (Val s, tr) -> Forall (exact (std uf rc)) tr -> Forall plain_cmd cs -> Forall kept (d_notes s) ->
  s_defd (std uf rc) stdD V cs s_init -> s_sorted V cs 0 ->
  Forall2 (fun (F : list Prop) p => (forall P, In P F -> P) <-> exists rho, well_typed rho /\
      (forall i v, nth_error (declared_vars (rev (d_ops s))) i = Some v -> varval v rho = V i) /\
      (forall v d, In (v, d) (p_doms p) -> d (rho v)) /\ forall f, In f (p_asserts p) -> defF (std uf rc) stdD f rho /\ holds (std uf rc) f rho)
    (s_checks (std uf rc) stdD V cs s_init) (problems (rev (d_ops s)) (p_empty, [])).
Proof. exact (fun uf rc fpow n alloc V cs s tr H => script_ok uf rc fpow n alloc H V cs s tr). Qed.
Print Assumptions C36_scripts_partial.
Example C36_example : forall uf rc fpow, increasing alloc1 /\
  exists s t, script fpow 20 alloc1 script1 drv0 = (Val s, t) /\ rev (d_ops s) = calls1 /\ Forall (exact (std uf rc)) t /\ Forall kept (d_notes s) /\
  Forall plain_cmd script1 /\ s_defd (std uf rc) stdD vals1 script1 s_init /\ s_sorted vals1 script1 0 /\ names_ok script1 ([], [], []) /\ z_defd (std uf rc) stdD vals1 script1 (s_init, []).
Proof. exact script1_meets. Qed.
(** A let under forall is hoisted out of the quantifier: a false assertion is satisfiable. *)
Theorem C36_let_under_forall_refuted : forall uf rc fpow, exists s t p, script fpow 20 al script4 drv0 = (Val s, t) /\ Forall (exact (std uf rc)) t /\ problems (rev (d_ops s)) (p_empty, []) = [p] /\
  satisfiable (std uf rc) stdD p /\ forall V, ~ facts_of (std uf rc) stdD V script4.
Proof. exact let_in_forall. Qed.
Print Assumptions C36_let_under_forall_refuted.
(** A let in the body of a function is shared by all its calls: a true script is unsatisfiable, a false one satisfiable. *)
Theorem C36_let_in_function_refuted : forall uf rc fpow, exists s t p, script fpow 20 al script5 drv0 = (Val s, t) /\ Forall (exact (std uf rc)) t /\ problems (rev (d_ops s)) (p_empty, []) = [p] /\
  ~ satisfiable (std uf rc) stdD p /\ forall V, facts_of (std uf rc) stdD V script5.
Proof. exact let_in_fun. Qed.
Print Assumptions C36_let_in_function_refuted.
Theorem C36_let_in_function_sat_refuted : forall uf rc fpow, exists s t p, script fpow 20 al script6 drv0 = (Val s, t) /\ Forall (exact (std uf rc)) t /\ problems (rev (d_ops s)) (p_empty, []) = [p] /\
  satisfiable (std uf rc) stdD p /\ forall V, ~ facts_of (std uf rc) stdD V script6.
Proof. exact let_in_fun_sat. Qed.
Print Assumptions C36_let_in_function_sat_refuted.

(** ** C37: quantified Booleans.  [term9] in [C34_example] quantifies over a Boolean and a Real. *)
Theorem C37_forall_partial : forall uf rc fpow n alloc V cs s tr bs t tm s' tr', increasing alloc ->
  script fpow n alloc cs drv0 = (Val s, tr) -> Forall (exact (std uf rc)) tr -> Forall plain_cmd cs -> Forall kept (d_notes s') ->
  s_defd (std uf rc) stdD V cs s_init -> s_sorted V cs 0 ->
  elab fpow n alloc (SForall bs t) s = (Val (tm, s'), tr') -> Forall (exact (std uf rc)) tr' -> plain_term t -> has_let t = false -> Forall binder_ok bs ->
  let S0 := s_run (std uf rc) stdD V cs s_init in
  all_values in_sort bs (ss_env S0) (fun E => defd (std uf rc) (ss_funs S0) stdD (ss_fdef S0) t E) ->
  forall rho, reads V (rev (d_ops s)) rho ->
  (term_value (std uf rc) tm rho = VB true <-> all_values in_binder bs (ss_env S0) (fun E => den (std uf rc) (ss_funs S0) t E = VB true)).
Proof. exact (fun uf rc fpow n alloc V cs s tr bs t tm s' tr' H => forall_ok uf rc fpow n alloc H V cs s tr bs t tm s' tr'). Qed.
Print Assumptions C37_forall_partial.
Theorem C37_no_boolean_quantified : forall uf rc fpow n alloc cs s tr, script fpow n alloc cs drv0 = (Val s, tr) -> Forall (exact (std uf rc)) tr ->
  forall f v, In (OAssert f) (rev (d_ops s)) -> In v (boundF f) -> vty v <> BOOLEAN.
Proof. exact no_bool_bound. Qed.
Print Assumptions C37_no_boolean_quantified.

(** ** C38: scopes *)
Theorem C38_scopes_partial : forall uf rc fpow n alloc V cs s tr, increasing alloc -> names_ok cs ([], [], []) ->
  script fpow n alloc cs drv0 = (Val s, tr) -> Forall (exact (std uf rc)) tr -> Forall plain_cmd cs -> Forall kept (d_notes s) ->
  z_defd (std uf rc) stdD V cs (s_init, []) -> s_sorted V cs 0 ->
  Forall2 (fun (F : list Prop) p => (forall P, In P F -> P) <-> exists rho, reads V (rev (d_ops s)) rho /\
      (forall v d, In (v, d) (p_doms p) -> d (rho v)) /\ forall f, In f (p_asserts p) -> defF (std uf rc) stdD f rho /\ holds (std uf rc) f rho)
    (z_checks (std uf rc) stdD V cs (s_init, [])) (problems (rev (d_ops s)) (p_empty, [])).
Proof. exact (fun uf rc fpow n alloc V cs s tr H => script_scoped uf rc fpow n alloc H V cs s tr). Qed.
Print Assumptions C38_scopes_partial.
(** A name of a popped scope is still accepted, and the answer is wrong. *)
Theorem C38_popped_name_refuted : forall uf rc fpow, (~ names_ok script7 ([], [], [])) /\
  exists s t c p, script fpow 20 al script7 drv0 = (Val s, t) /\ Forall (exact (std uf rc)) t /\ run_ex ex_T (rev (d_ops s)) = Some (c, [None]) /\
  problems (rev (d_ops s)) (p_empty, []) = [p] /\ satisfiable (std uf rc) stdD p /\ forall V, V 0%nat = VR 3 -> V 1%nat = VR (-6) -> facts_of (std uf rc) stdD V script7.
Proof. exact popped_name. Qed.
Print Assumptions C38_popped_name_refuted.

(** ** C01 for scripts: after `unsat' the script has no (regular) solution. *)
Theorem C01_script_unsat_sound_partial :
  forall uf rc fpow n alloc V cs s tr fold esub eneg m A L fa term pn mid precision use_worklist k left_first K pico n0 c answers,
  let M := std uf rc in let ops := rev (d_ops s) in
  increasing alloc -> names_ok cs ([], [], []) -> script fpow n alloc cs drv0 = (Val s, tr) -> Forall (exact M) tr -> Forall plain_cmd cs -> Forall kept (d_notes s) ->
  z_defd M stdD V cs (s_init, []) -> s_sorted V cs 0 -> regular_at uf rc V ops ->
  rc_ok M -> mid_ok mid -> ibex_ok M stdD L -> eneg_faithful M stdD eneg -> sqrt_ok M stdD -> ia_ok M stdD A -> esub_ok M stdD esub -> pico_ok pico ->
  cx_run fold K pico (solver_seq esub eneg m (ibex_oracles L esub eneg m fa) term pn (rel_eval A esub) mid precision use_worklist k left_first) mid precision ops (cx_init n0) = Some (c, answers) ->
  admissible M stdD fold K n0 ops [] (p_empty, []) -> ints_ok use_worklist ops ->
  Forall2 (fun F a => a = None -> ~ forall P : Prop, In P F -> P) (z_checks M stdD V cs (s_init, [])) answers.
Proof.
  exact (fun uf rc fpow n alloc V cs s tr fold esub eneg m A L fa term pn mid precision wl k lf K pico n0 c a Hal Hn E Ht Hp Hk Hd Hs Hr RC Hm HL HN HS HA HD HP Er Ad Io =>
    script_unsat_scoped uf rc fpow n alloc Hal V cs s tr a Hn E Ht Hp Hk Hd Hs Hr
      (unsat_top (std uf rc) stdD fold mid precision wl RC K pico n0 _ HP (T_seq (std uf rc) stdD fold esub eneg m A L fa term pn mid precision wl RC Hm HL HN HS HA HD k lf) _ c a Er Ad Io)).
Qed.
Print Assumptions C01_script_unsat_sound_partial.
Example C01_script_example : admissible Mstd stdD nofold kplain 10 calls1 [] (p_empty, []) /\ verdicts (run_ex ex_T calls1) = Some [false; true].
Proof. exact (conj calls1_adm script1_runs). Qed.

(** ** C43: the output of a script *)
Theorem C43_lines_report_last_check_partial : forall fold K pico T mid precision A compliant produce n qs c lines,
  o_run fold K pico T mid precision A compliant produce qs (cx_init n) = Some (c, lines) ->
  exists answers, cx_run fold K pico T mid precision (calls_of qs) (cx_init n) = Some (c, answers) /\ reports A compliant produce qs answers None lines.
Proof. exact (fun fold K pico T mid precision A compliant produce => run_reports_init fold K pico T mid precision A compliant produce). Qed.
Print Assumptions C43_lines_report_last_check_partial.
Example C43_example : exists c l d m w, out_ex half out1 = Some (c, [Val LUnsat; Val LError; Val (LSatDelta (Some d)); Val (LModel m); Val (LValues w)]) /\ length d = 3%nat /\ length m = 3%nat /\ length w = 2%nat /\ l = calls_of out1.
Proof. exact out1_runs. Qed.
(** What get-model prints contains every point of the model. *)
Theorem C43_model_values : forall m rho v s, box_ok m -> in_box rho m -> In (v, s) (print_model m) -> says s (rho v).
Proof. exact says_model. Qed.
Print Assumptions C43_model_values.
(** What check-sat prints contains every point of the model (for integral ends, see C30). *)
Theorem C43_check_sat_values : forall m rho v s l, box_ok m -> in_box rho m -> (forall i w, nth_error (bvars m) i = Some w -> vty w <> CONTINUOUS -> int_ends (b_get m i)) ->
  (forall w, In w (bvars m) -> vty w = BOOLEAN -> rho w = 0%R \/ rho w = 1%R) ->
  print_check false true (Some m) = Val (LSatDelta (Some l)) -> In (v, s) l -> says s (rho v).
Proof. exact says_check. Qed.
Print Assumptions C43_check_sat_values.
(** What get-value prints contains the value of the term at every point of the model; rationals are exact. *)
Theorem C43_term_values : forall M D A m rho ts l, ia_ok M D A -> rc_ok M -> box_ok m -> in_box rho m -> Forall (term_fine M D m rho) ts -> values_of A m ts = Val l ->
  map fst l = ts /\ Forall (fun p => value_says M m rho (fst p) (snd p)) l.
Proof. exact (fun M D A m rho ts l HA HM K H F E => values_ok M D A HA HM m rho ts K H F l E). Qed.
Print Assumptions C43_term_values.
Theorem C43_rationals : forall d p, to_rational d = Val p -> is_finite d = true /\ rat p = B2R d /\ (0 < snd p)%Z /\ Z.gcd (fst p) (snd p) = 1%Z.
Proof. exact to_rational_exact. Qed.
Print Assumptions C43_rationals.
Example C43_values_example : ia_ok Mstd stdD lin /\ rc_ok Mstd /\ box_ok exb /\ exists p, to_rational half = Val p.
Proof. exact (conj lin_ok (conj Mstd_rc (conj exb_ok (ex_intro _ _ eq_refl)))). Qed.
(** get-model before any check prints a model. *)
Theorem C43_model_before_check_refuted : exists c, out_ex half [CGetModel] = Some (c, [Val (LModel [])]).
Proof. exact model_before_check. Qed.
Print Assumptions C43_model_before_check_refuted.
(** get-value after unsat prints false for a Boolean, and is undefined behaviour for a Real. *)
Theorem C43_value_after_unsat_refuted : exists c, out_ex half out2 = Some (c, [Val LUnsat; Val (LValues [(TmF (FVar bx), ShFalse)])]).
Proof. exact value_after_unsat. Qed.
Print Assumptions C43_value_after_unsat_refuted.
Theorem C43_value_after_unsat_undefined_refuted : exists c, out_ex half out3 = Some (c, [Val LUnsat; Ub]).
Proof. exact value_ub. Qed.
Print Assumptions C43_value_after_unsat_undefined_refuted.
(** Printing an Int above the range of int is undefined behaviour. *)
Theorem C43_int_model_undefined_refuted : exists c, out_ex half out4 = Some (c, [Ub]).
Proof. exact int_model_ub. Qed.
Print Assumptions C43_int_model_undefined_refuted.
(** With precision 1, get-model prints no value for an undecided Boolean and get-value prints false. *)
Theorem C43_undecided_boolean_refuted : exists c, out_ex (dZ 1) out5 = Some (c, [Val (LSatDelta (Some [(bx, ShUnassigned)])); Val (LModel [(bx, ShNone)]); Val (LValues [(TmF (FVar bx), ShFalse)])]).
Proof. exact undecided. Qed.
Print Assumptions C43_undecided_boolean_refuted.
