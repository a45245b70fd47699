(** * Properties of the solver context: C01, C10, C24, C31 *)
From Coq Require Import ZArith Reals List Bool.
From Flocq Require Import IEEE754.BinarySingleNaN.
From Verif Require Import Dbl Syntax Sem SpecForm Scoped Interval MathConv IEval IEvalProofs Contr ContrProofs IbexConv IbexConvProofs Icp IcpProofs IcpPar Filter Theory TheoryUsed
  IteElim SpecIte Regular Wff Sat Context SpecCtx CtxStruct SatSem CdclProofs CtxInv CtxTop SatReach StdInterp ExamplesForm ExamplesBox ExamplesEval ExamplesContr ExamplesIcp ExamplesIte ExamplesCtx.
Import ListNotations.

(** ** C01.  Along every history of declarations, domain settings, assertions, push, pop and checks, with
    any correct SAT solver, any sound IBEX and interval arithmetic, any branching order and number of steps:
    a check that answers unsat is about a problem without solution.
    Left out: quantified formulas, solutions next to a strict bound ([regular]; refuted below), the
    polytope option, the worklist option with integer variables, enlarging a domain after an assertion
    (refuted below, C31), Int variables outside the range of int (refuted below). *)
Theorem C01_unsat_sound_partial :
  forall M D fold esub eneg m A L fa term pn mid precision use_worklist k left_first K pico n ops c answers,
  rc_ok M -> mid_ok mid -> ibex_ok M D L -> eneg_faithful M D eneg -> sqrt_ok M D -> ia_ok M D A -> esub_ok M D esub -> pico_ok pico ->
  cx_run fold K pico (solver_seq esub eneg m (ibex_oracles L esub eneg m fa) term pn (rel_eval A esub) mid precision use_worklist k left_first) mid precision ops (cx_init n) = Some (c, answers) ->
  admissible M D fold K n ops [] (p_empty, []) -> ints_ok use_worklist ops ->
  Forall2 (fun p answer => answer = None -> ~ exists rho, solution M D p rho) (problems ops (p_empty, [])) answers.
Proof.
  exact (fun M D fold esub eneg m A L fa term pn mid precision wl k lf K pico n ops c a RC Hm HL HN HS HA HD HP E Ad Io =>
    unsat_top M D fold mid precision wl RC K pico n _ HP (T_seq M D fold esub eneg m A L fa term pn mid precision wl RC Hm HL HN HS HA HD k lf) ops c a E Ad Io).
Qed.
Print Assumptions C01_unsat_sound_partial.
(** The same with any number of worker threads under any schedule. *)
Theorem C01_parallel_unsat_sound_partial :
  forall M D fold esub eneg m A L fa term pn mid precision use_worklist left_first jobs sched K pico n ops c answers,
  rc_ok M -> mid_ok mid -> ibex_ok M D L -> eneg_faithful M D eneg -> sqrt_ok M D -> ia_ok M D A -> esub_ok M D esub -> pico_ok pico -> jobs <> 0 ->
  cx_run fold K pico (solver_par esub eneg m (ibex_oracles L esub eneg m fa) term pn (rel_eval A esub) mid precision use_worklist left_first jobs sched) mid precision ops (cx_init n) = Some (c, answers) ->
  admissible M D fold K n ops [] (p_empty, []) -> ints_ok use_worklist ops ->
  Forall2 (fun p answer => answer = None -> ~ exists rho, solution M D p rho) (problems ops (p_empty, [])) answers.
Proof.
  exact (fun M D fold esub eneg m A L fa term pn mid precision wl lf jobs sched K pico n ops c a RC Hm HL HN HS HA HD HP J E Ad Io =>
    unsat_top M D fold mid precision wl RC K pico n _ HP (T_par M D fold esub eneg m A L fa term pn mid precision wl RC Hm HL HN HS HA HD lf jobs sched J) ops c a E Ad Io).
Qed.
Print Assumptions C01_parallel_unsat_sound_partial.
Example C01_hypotheses_met : rc_ok Mstd /\ mid_ok ibex_mid /\ ibex_ok Mstd stdD lib /\ eneg_faithful Mstd stdD plain_neg /\ sqrt_ok Mstd stdD /\ ia_ok Mstd stdD lin /\
  esub_ok Mstd stdD plain_sub /\ pico_ok brute /\ admissible Mstd stdD nofold kplain 10 ops1 [] (p_empty, []) /\ ints_ok false ops1.
Proof.
  exact (conj Mstd_rc (conj ibex_mid_ok (conj lib_ok (conj (plain_neg_ok _ _) (conj (std_sqrt_ok _ _) (conj lin_ok (conj (fun a b => plain_sub_ok Mstd stdD a b)
    (conj brute_ok (conj ops1_adm (fun C _ _ _ _ => False_ind _ (Bool.diff_false_true C))))))))))).
Qed.
Example C01_runs : verdicts (run_ex ex_T ops1) = Some [false; true] /\ verdicts (run_ex ex_P ops1) = Some [false; true].
Proof. exact ops1_runs. Qed.
(** An Int variable declared without bounds is limited to the range of int, with a wrong unsat. *)
Theorem C01_unbounded_int_refuted : exists c, run_ex ex_T ops_int = Some (c, [None]) /\
  exists rho, well_typed rho /\ holds Mstd (FRel RGeq (EVar vi) (EConst (dZ 3000000000))) rho.
Proof. exact int_wrong. Qed.
Print Assumptions C01_unbounded_int_refuted.
(** Strict bounds are moved to the next double, with a wrong unsat. *)
Theorem C01_strict_bounds_refuted : exists c, run_ex ex_T ops_strict = Some (c, [None]) /\
  exists rho, well_typed rho /\ between (dZ 0) (dZ 4) (rho vx) /\ holds Mstd (xc RGt 1) rho /\ holds Mstd (FRel RLt (EVar vx) (EConst (mkd 4503599627370497 (-52)))) rho.
Proof. exact strict_wrong. Qed.
Print Assumptions C01_strict_bounds_refuted.

(** ** C31.  Setting domains between checks: a smaller domain keeps unsat answers right (this is C01 with
    [OSetInterval] and [ODeclareDom] in the history, see [op_ok]); a larger one does not. *)
Theorem C31_unsat_after_domain_changes_partial :
  forall M D fold esub eneg m A L fa term pn mid precision use_worklist k left_first K pico n ops c answers,
  rc_ok M -> mid_ok mid -> ibex_ok M D L -> eneg_faithful M D eneg -> sqrt_ok M D -> ia_ok M D A -> esub_ok M D esub -> pico_ok pico ->
  cx_run fold K pico (solver_seq esub eneg m (ibex_oracles L esub eneg m fa) term pn (rel_eval A esub) mid precision use_worklist k left_first) mid precision ops (cx_init n) = Some (c, answers) ->
  admissible M D fold K n ops [] (p_empty, []) -> ints_ok use_worklist ops ->
  Forall2 (fun p answer => answer = None -> ~ exists rho, solution M D p rho) (problems ops (p_empty, [])) answers.
Proof. exact C01_unsat_sound_partial. Qed.
Print Assumptions C31_unsat_after_domain_changes_partial.
Example C31_hypotheses_met : admissible Mstd stdD nofold kplain 10 ops_narrow [] (p_empty, []) /\ verdicts (run_ex ex_T ops_narrow) = Some [true; false].
Proof. exact (conj narrow_adm narrow_runs). Qed.
(** Clauses learned by an earlier check outlive the domain they were learned in. *)
Theorem C31_learned_clauses_refuted : exists c a, run_ex ex_T ops_stale = Some (c, a) /\
  ~ Forall2 (fun p answer => answer = None -> ~ exists rho, solution Mstd stdD p rho) (problems ops_stale (p_empty, [])) a.
Proof. exact stale_wrong. Qed.
Print Assumptions C31_learned_clauses_refuted.
(** A box emptied by an assertion stays empty when a domain is set again. *)
Theorem C31_emptied_box_refuted : exists c a, run_ex ex_T ops_emptied = Some (c, a) /\
  ~ Forall2 (fun p answer => answer = None -> ~ exists rho, solution Mstd stdD p rho) (problems ops_emptied (p_empty, [])) a.
Proof. exact emptied_wrong. Qed.
Print Assumptions C31_emptied_box_refuted.

(** ** C10.  The loop between the SAT solver and the theory solver, from every state that a history of
    added formulas, scopes and earlier calls can lead to.  [assigned s a f]: the assignment [a] makes the
    theory literal [f] true. *)
(** It answers unsat only if every assignment satisfying the clauses contains a set of literals that the
    theory solver refuted. *)
Theorem C10_unsat_no_consistent_assignment : forall fold pico T k b s n t s' n' t', pico_ok pico ->
  (forall t b fs E, T t b fs = Some (TUnsat E) -> incl E fs) -> sat_reach fold pico T s n ->
  core_loop fold pico T k b s n t = Some (None, s', n', t') ->
  forall a : nat -> bool, (forall L, In L (sv_vec (ss_clauses s)) -> exists l, In l L /\ a (fst l) = snd l) ->
    exists t0 b0 fs E, T t0 b0 fs = Some (TUnsat E) /\ forall f, In f E -> assigned s (fun i => Some (a i)) f.
Proof. exact (fun fold pico T k b s n t s' n' t' P S R E => loop_unsat fold pico T P S k b s n t s' n' t' (reach_sok Mstd fold pico T S s n R) E). Qed.
Print Assumptions C10_unsat_no_consistent_assignment.
(** It answers sat only with an assignment satisfying every clause, whose theory literals are exactly those
    accepted by the theory solver (or there are none). *)
Theorem C10_sat_accepted_assignment : forall fold pico T k b s n t m s' n' t', pico_ok pico ->
  (forall t b fs E, T t b fs = Some (TUnsat E) -> incl E fs) -> sat_reach fold pico T s n ->
  core_loop fold pico T k b s n t = Some (Some m, s', n', t') ->
  exists a, (forall L, In L (sv_vec (ss_clauses s')) -> clause_sat a L) /\ incl (sv_vec (ss_clauses s)) (sv_vec (ss_clauses s')) /\
    ((forall f, ~ assigned s a f) \/ exists t0 b0 fs, T t0 b0 fs = Some (TSat m) /\ forall f, In f fs <-> assigned s a f).
Proof. exact (fun fold pico T k b s n t m s' n' t' P S R E => loop_sat fold pico T P S k b s n t m s' n' t' (reach_sok Mstd fold pico T S s n R) E). Qed.
Print Assumptions C10_sat_accepted_assignment.
(** Each learned clause is false in the assignment just tried, so no assignment is tried twice. *)
Theorem C10_no_assignment_twice : forall fold pico T k b s n t o s' n' t', pico_ok pico ->
  (forall t b fs E, T t b fs = Some (TUnsat E) -> incl E fs) -> sat_reach fold pico T s n ->
  core_loop fold pico T k b s n t = Some (o, s', n', t') ->
  exists tried learned, sv_vec (ss_clauses s') = sv_vec (ss_clauses s) ++ learned /\
    Forall2 (fun a L => forall l, In l L -> a (fst l) = Some (negb (snd l))) tried learned /\
    Forall (fun a => forall L, In L (sv_vec (ss_clauses s)) -> clause_sat a L) tried /\
    (forall i j a a', i < j -> nth_error tried i = Some a -> nth_error tried j = Some a' -> exists x, 1 <= x <= ss_max s /\ a x <> a' x).
Proof. exact (fun fold pico T k b s n t o s' n' t' P S R E => loop_excl fold pico T P S k b s n t o s' n' t' (reach_sok Mstd fold pico T S s n R) E). Qed.
Print Assumptions C10_no_assignment_twice.
(** The loop ends: more rounds than partial assignments are never needed. *)
Theorem C10_loop_terminates : forall fold pico T k b s n t, pico_ok pico ->
  (forall t b fs E, T t b fs = Some (TUnsat E) -> incl E fs) -> sat_reach fold pico T s n -> S (3 ^ ss_max s) <= k ->
  core_loop fold pico T k b s n t = core_loop fold pico T (S (3 ^ ss_max s)) b s n t.
Proof. exact (fun fold pico T k b s n t P S R => loop_terminates fold pico T P S b s n t k (reach_sok Mstd fold pico T S s n R)). Qed.
Print Assumptions C10_loop_terminates.
(** The modelled theory solver answers with a subset of the literals it is given. *)
Theorem C10_theory_answers_subset : forall esub eneg m Orc term pn ev mid precision use_worklist k left_first t b fs E,
  solver_seq esub eneg m Orc term pn ev mid precision use_worklist k left_first t b fs = Some (TUnsat E) -> incl E fs.
Proof. exact solver_seq_sub. Qed.
Print Assumptions C10_theory_answers_subset.
Theorem C10_parallel_theory_answers_subset : forall esub eneg m Orc term pn ev mid precision use_worklist left_first jobs sched t b fs E,
  solver_par esub eneg m Orc term pn ev mid precision use_worklist left_first jobs sched t b fs = Some (TUnsat E) -> incl E fs.
Proof. exact solver_par_sub. Qed.
Print Assumptions C10_parallel_theory_answers_subset.
Example C10_hypotheses_met : pico_ok brute /\ (forall t b fs E, ex_T t b fs = Some (TUnsat E) -> incl E fs) /\
  exists s n, sat_add_formula nofold (FOr [xc RGeq 2; xc RLeq (-1)]) 10 sat_init = Some (s, n) /\ sat_reach nofold brute ex_T s n.
Proof. exact (conj brute_ok (conj ex_T_sub loop_reach)). Qed.
Example C10_runs : loop_res 1 = Some (false, 3) /\ loop_res 10 = Some (true, 3).
Proof. exact loop_runs. Qed.

(** ** C24.  Push, any well-bracketed calls, Pop: the box, the assertions, the SAT clauses and the SAT
    solver's variable maps are those before the Push.  From every reachable context. *)
Theorem C24_push_pop_restores : forall fold K pico T mid precision n ops c a body c1 a1,
  cx_run fold K pico T mid precision ops (cx_init n) = Some (c, a) -> balanced 0 body ->
  cx_run fold K pico T mid precision (OPush :: body) c = Some (c1, a1) ->
  exists c2, cx_pop c1 = Some c2 /\ cx_box c2 = cx_box c /\ sv_vec (cx_stack c2) = sv_vec (cx_stack c) /\
    sv_vec (ss_clauses (cx_sat c2)) = sv_vec (ss_clauses (cx_sat c)) /\
    (forall v, sat_of (cx_sat c2) v = sat_of (cx_sat c) v) /\ (forall k, sym_of (cx_sat c2) k = sym_of (cx_sat c) k) /\
    (forall v, is_tse (cx_sat c2) v = is_tse (cx_sat c) v).
Proof. exact (fun fold K pico T mid precision n ops c a body c1 a1 => push_pop fold K pico T mid precision n ops c a body c1 a1). Qed.
Print Assumptions C24_push_pop_restores.
Example C24_hypotheses_met : balanced 0 body24 /\ verdicts (run_ex ex_T (pre24 ++ OPush :: body24)) = Some [false; true].
Proof. exact body24_ok. Qed.
