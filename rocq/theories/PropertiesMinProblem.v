(** * Optimization over the asserted problem: C28, C44

    [current ops]: the problem in force after the calls [ops]; [satisfying], [optimal], [exact_op], [posed_problem], [api_point], [api_posed] are in SpecFaith.v. *)
From Coq Require Import ZArith Reals List Bool.
From Flocq Require Import IEEE754.BinarySingleNaN.
From Verif Require Import Dbl Syntax Sem FormulaCons SpecForm PredAbs Interval IEval Filter StdInterp ExprAlg SpecAlg SpecIte SmtOcc Scoped IteElim Regular Wff Sat Theory Context SpecCtx SpecWeak SpecFaith
  Minim SpecMin MinimProofs MinFaith Api SpecApi ApiFaith ExamplesForm ExamplesBox ExamplesIte ExamplesAlg ExamplesCtx ExamplesMin ExamplesDr ExamplesFaith.
Import ListNotations.

(** ** C28.  After any calls and then Minimize, the points satisfying the problem are, up to the variables Minimize adds, the points that satisfy
    what was asserted and that no such point beats in every objective.  Missing for the full statement: strict bounds of real variables by
    literals (refuted in PropertiesMin) and bounds by interval literals, if-then-else, quantifiers, and what is undefined somewhere in the domains. *)
Theorem C28_minimize_problem_partial : forall uf rc fpow n fold K pico T mid precision nx, let M := std uf rc in rc_ok M ->
  forall ops c a, admissible M stdD fold K nx ops [] (p_empty, []) -> delta_ops fold ops (p_empty, []) -> Forall exact_op ops ->
  cx_run fold K pico T mid precision ops (cx_init nx) = Some (c, a) ->
  forall fs mops t, minimize fpow n fs c = (Val mops, t) -> Forall (exact M) t -> posed_problem M stdD (current ops) fs ->
  forall rho, (exists rho1, agree_off (declared_by mops) rho rho1 /\ satisfying M (current (ops ++ mops)) rho1) <->
    satisfying M (current ops) rho /\ optimal M (current ops) fs rho.
Proof. exact minimize_problem. Qed.
Print Assumptions C28_minimize_problem_partial.
Theorem C28_maximize_problem_partial : forall uf rc fpow n fold K pico T mid precision nx, let M := std uf rc in rc_ok M ->
  forall ops c a, admissible M stdD fold K nx ops [] (p_empty, []) -> delta_ops fold ops (p_empty, []) -> Forall exact_op ops ->
  cx_run fold K pico T mid precision ops (cx_init nx) = Some (c, a) ->
  forall f mops t, maximize fpow n f c = (Val mops, t) -> Forall (exact M) t -> posed_problem M stdD (current ops) [f] ->
  forall rho, (exists rho1, agree_off (declared_by mops) rho rho1 /\ satisfying M (current (ops ++ mops)) rho1) <->
    satisfying M (current ops) rho /\ ~ exists rho', satisfying M (current ops) rho' /\ (evalE M f rho' > evalE M f rho)%R.
Proof. exact maximize_problem. Qed.
Print Assumptions C28_maximize_problem_partial.
(** x, y in [0,10], i an integer; x >= 2, i > 0, x + y >= 3 (and x >= 5 in a scope that was closed); objective x + 2 y: (3, 0) is an optimum, (2, 1) is none. *)
Example C28_problem_example : forall fpow, admissible Mstd stdD nofold kplain 10 fops [] (p_empty, []) /\ delta_ops nofold fops (p_empty, []) /\ Forall exact_op fops /\ posed_problem Mstd stdD (current fops) [mobj] /\
  (exists c ops t mops mt, run_ex ex_T fops = Some (c, []) /\ minimize fpow 20 [mobj] c = (Val ops, t) /\ Forall (exact Mstd) t /\ maximize fpow 20 mobj c = (Val mops, mt) /\ Forall (exact Mstd) mt) /\
  satisfying Mstd (current fops) (at_i 3 0 1) /\ optimal Mstd (current fops) [mobj] (at_i 3 0 1) /\
  satisfying Mstd (current fops) (at_i 2 1 1) /\ ~ optimal Mstd (current fops) [mobj] (at_i 2 1 1).
Proof. exact fops_meet. Qed.

(** ** C44.  Minimize(g, f) checks one problem, whose points are, up to fresh variables, the points of the default domains at which f holds and
    that no such point beats.  Missing: as above. *)
Theorem C44_minimize_problem_partial : forall fold K pico T mid uf rc fpow n g f precision nx fuel r t, let M := std uf rc in rc_ok M ->
  api_minimize fold K pico T mid fpow n g f precision nx fuel = (Val (Some r), t) -> Forall (exact M) t -> fresh_ids (fvF f ++ fvE g) nx ->
  qf_formula f -> ite_exact M stdD fold K f -> hasIteF f = false -> unfolded fold f -> f <> FFalse -> exact_bound f -> api_posed M stdD g f ->
  exists ops c' zs p, cx_run fold K pico (T precision) mid precision (ops ++ [OCheck fuel]) (cx_init nx) = Some (c', [r]) /\ problems (ops ++ [OCheck fuel]) (p_empty, []) = [p] /\
    (forall z, In z zs -> nx <= vid z) /\
    forall rho, (exists rho1, agree_off zs rho rho1 /\ satisfying M p rho1) <->
      api_point M (fvF f ++ fvE g) f rho /\ ~ exists rho', api_point M (fvF f ++ fvE g) f rho' /\ (evalE M g rho' < evalE M g rho)%R.
Proof. exact api_minimize_problem. Qed.
Print Assumptions C44_minimize_problem_partial.
(** 1 <= x <= 3 and 2 x <= 8, minimize x: the optimum is 1. *)
Example C44_minimize_problem_example : forall fpow, fresh_ids (fvF af2 ++ fvE ex_x) 10 /\ qf_formula af2 /\ ite_exact Mstd stdD nofold kplain af2 /\ hasIteF af2 = false /\ unfolded nofold af2 /\ af2 <> FFalse /\
  exact_bound af2 /\ api_posed Mstd stdD ex_x af2 /\ mverdict (api_minimize nofold kplain brute toyT ibex_mid fpow 20 ex_x af2 half 10 20) = Some true /\
  api_point Mstd (fvF af2 ++ fvE ex_x) af2 (at3 1 0 0) /\ ~ (exists rho', api_point Mstd (fvF af2 ++ fvE ex_x) af2 rho' /\ (evalE Mstd ex_x rho' < evalE Mstd ex_x (at3 1 0 0))%R).
Proof. exact af_problem. Qed.
