(** * Properties of the theory solver's caches: C48 *)
From Coq Require Import ZArith Reals List Bool.
From Flocq Require Import IEEE754.BinarySingleNaN.
From Verif Require Import Dbl Syntax Sem SpecForm SpecAlg Scoped Interval MathConv IEval IEvalProofs Contr ContrProofs IbexConv IbexConvProofs Icp IcpPar Filter Theory
  IteElim SpecIte Regular Wff Sat Context SpecCtx CtxInv CtxTop StdInterp Cache SpecCache CacheProofs CacheLink CacheCtx CacheTop
  ExamplesForm ExamplesBox ExamplesEval ExamplesContr ExamplesIcp ExamplesIte ExamplesCtx ExamplesForall ExamplesCache.
Import ListNotations.

(** ** C48.  A theory solver that keeps contractors and evaluators from earlier calls answers a sequence of queries exactly as one that
    builds them anew for each query's precision and variables, with any search, if a literal that is checked twice is checked with the
    same variables and, when quantified, the same precision.
    Left out: the state inside contractors and evaluators of quantified literals (C32, C33), the polytope and worklist options.
    Without the condition the property is false, see below. *)
Theorem C48_queries_partial :
  forall esub eneg n L fa fe rel term m mid search t qs, a_search mid search -> unchanged qs ->
  match tc_run esub eneg n L fa fe rel term m search t qs cache0 with Some (_, answers) => Some answers | None => None end =
  all_of (map (fun x => fresh_T esub eneg n L fa fe rel term m search (q_prec (snd x)) (fst x) (q_box (snd x)) (q_lits (snd x))) (combine (seq t (length qs)) qs)).
Proof. exact run_theory. Qed.
Print Assumptions C48_queries_partial.
Example C48_queries_met : a_search ibex_mid ex_srch /\ unchanged qs3 /\
  answers3 (tc_run plain_sub plain_neg 10 lib fa_at fe_at icp_ev default_term 20 ex_srch 0 qs3 cache0) = Some ([true; false; true], 2).
Proof. exact (conj ex_srch_is (conj qs3_unchanged qs3_runs)). Qed.
(** A context with such a theory solver gives the answers and models of one without caches, along every history in two phases: options,
    declarations and constraints, then scopes, constraints without if-then-else terms, domain settings and checks. *)
Theorem C48_history_partial :
  forall esub eneg n L fa fe rel term m mid search fold K pico ops p nx, a_search mid search -> two_phase ops ->
  match k_run esub eneg n L fa fe rel term m search fold K pico mid ops p (cx_init nx) cache0 with Some (x, _, answers) => Some (x, answers) | None => None end =
  p_run fold K pico (fresh_T esub eneg n L fa fe rel term m search) mid ops p (cx_init nx).
Proof.
  exact (fun esub eneg n L fa fe rel term m mid search fold K pico ops p nx Hs =>
    two_phase_run esub eneg n L fa fe rel term m search (search_local mid search Hs) fold K pico mid ops p nx).
Qed.
Print Assumptions C48_history_partial.
(** Along such histories the caching context is right when it answers unsat (C01). *)
Theorem C48_unsat_sound_partial :
  forall M D fold esub eneg n A L fa fe term m mid search K pico nx p ops x c answers, a_search mid search ->
  rc_ok M -> mid_ok mid -> ibex_ok M D L -> eneg_faithful M D eneg -> sqrt_ok M D -> ia_ok M D A -> esub_ok M D esub -> pico_ok pico -> two_phase (map KOp ops) ->
  k_run esub eneg n L fa fe (rel_eval A esub) term m search fold K pico mid (map KOp ops) p (cx_init nx) cache0 = Some (x, c, answers) ->
  admissible M D fold K nx ops [] (p_empty, []) ->
  Forall2 (fun q answer => answer = None -> ~ exists rho, solution M D q rho) (problems ops (p_empty, [])) answers.
Proof.
  exact (fun M D fold esub eneg n A L fa fe term m mid search K pico nx p ops x c a Hs RC Hm HL HN HS HA HD =>
    cached_unsat M D fold esub eneg n A L fa fe term m mid search Hs RC Hm HL HN HS HA HD K pico nx p ops x c a).
Qed.
Print Assumptions C48_unsat_sound_partial.
Example C48_history_met : two_phase (map KOp ops1) /\ admissible Mstd stdD nofold kplain 10 ops1 [] (p_empty, []) /\ kverdicts (kx (map KOp ops1)) = Some [false; true].
Proof. exact (conj ops1_two (conj ops1_adm ops1_cached)). Qed.
(** The contractor of i > 3 was built for the variables (i, x) and is used on boxes over (x, i): unsat, although i = 4, x = 0 is a
    solution.  With contractors built anew the same history gives delta-sat twice. *)
Theorem C48_variables_refuted : exists x c answers, kx (map KOp swap_ops) = Some (x, c, answers) /\
  ~ Forall2 (fun q answer => answer = None -> ~ exists rho, solution Mstd stdD q rho) (problems swap_ops (p_empty, [])) answers.
Proof. exact swap_wrong. Qed.
Print Assumptions C48_variables_refuted.
Example C48_variables_without_caches : verdicts (px (map KOp swap_ops)) = Some [true; true].
Proof. exact (proj2 swap_runs). Qed.
(** A quantified constraint is checked at precision 8 and then at precision 1/4.  The contractor and the evaluator stay those for
    precision 8, and the second answer is delta-sat.  Built anew they give unsat; at no point of the domain does the constraint hold up
    to 1/4. *)
Theorem C48_precision_refuted :
  (exists x c m m', kx prec_ops = Some (x, c, [Some m; Some m'])) /\ (exists x m, px prec_ops = Some (x, [Some m; None])) /\
  forall rho, (4 <= rho vi <= 5)%R -> ~ slack Mstd (- B2R quarter) fa9 rho.
Proof. exact prec_wrong. Qed.
Print Assumptions C48_precision_refuted.
