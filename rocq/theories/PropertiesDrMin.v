(** * What the answer to a .dr file says about the file: C46

    [dr_solution], [bound_is], [means_exp], [dr_reads] are in SpecDr.v; [dr_minimum], [dr_total], [dr_lits], [folds], [dweak], [excused] in SpecDrMin.v. *)
From Coq Require Import ZArith Reals List Bool.
From Flocq Require Import IEEE754.BinarySingleNaN.
From Verif Require Import DblProofs SemProofs FormulaConsProofs ExprAlgProofs AlgTop IteElimProofs CtxStruct SatSem CtxInv CtxTop CtxModelTop CtxDeltaInv Smt2 ApiProofs ApiTop Dbl Syntax Sem FormulaCons SpecForm PredAbs Interval IntervalProofs IEval IEvalProofs MathConv Contr ContrProofs IbexConv IbexConvProofs Icp IcpProofs IcpPar Filter StdInterp ExprAlg SpecAlg SpecIte SmtOcc Scoped IteElim Regular Wff Sat Theory TheoryUsed Context SpecCtx SpecWeak SpecModel SpecFaith CtxDelta DrProofs
  Minim Dr SpecDr SpecDrMin DrFaith DrTop Api SpecApi ExamplesForm ExamplesBox ExamplesEval ExamplesContr ExamplesIcp ExamplesTheory ExamplesIte ExamplesAlg ExamplesCtx ExamplesSmt2 ExamplesDr ExamplesDrMin.
Import ListNotations.

(** ** A file with costs poses the problem of finding its minima: one check is made, of the problem whose points are, read through the names of
    the file, the solutions that no solution beats in every cost; what is printed is the answer to that check.  Missing for the full statement:
    strict bounds of a variable by a literal, what is undefined somewhere within the bounds, names declared twice. *)
Theorem C46_minimum_partial : forall uf rc fpow n evl fold K pico T mid precision eval d models nx fuel lines t, let M := std uf rc in rc_ok M -> folds fpow n fold ->
  dr_run fpow n evl fold K pico T mid precision eval d models nx fuel = (Val (Some lines), t) -> Forall (exact M) t ->
  dr_cost d <> [] -> dr_vars d <> [] -> NoDup (map dd_name (dr_vars d)) -> dr_lits d ->
  (forall ops gs t', dr_calls fpow n evl d nx = (Val (ops, gs), t') -> Forall exact_op ops) ->
  exists bs, Forall2 (fun dd b => bound_is M stdD evl (dr_vars d) nx (dd_lb dd) (fst b) /\ bound_is M stdD evl (dr_vars d) nx (dr_ub dd) (snd b)) (dr_vars d) bs /\
    (dr_total M stdD d bs -> exists ops c p r gs, cx_run fold K pico T mid precision (ops ++ [OCheck fuel]) (cx_init nx) = Some (c, [r]) /\ problems (ops ++ [OCheck fuel]) (p_empty, []) = [p] /\
      lines = dr_print mid precision eval models gs r /\ Forall2 (means_exp M stdD (dr_vars d) nx) (dr_cost d) gs /\
      forall V, (exists rho, dr_reads (dr_vars d) nx V rho /\ satisfying M p rho) <-> dr_minimum M stdD d bs V).
Proof. exact dr_minima. Qed.
Print Assumptions C46_minimum_partial.
(** x, y in [0, 10], x + y >= 3, x >= 1, cost x + 2 y: three lines are printed; (3, 0) is a minimum and (1, 2) is none. *)
Example C46_minimum_example : forall uf rc fpow, folds fpow 20 nofold /\
  (exists lines t, dr_run fpow 20 evlx nofold kplain brute (toyT half) ibex_mid half (fun _ _ => i_all) dr4 true 10 20 = (Val (Some lines), t) /\ length lines = 3 /\ Forall (exact (std uf rc)) t) /\
  dr_cost dr4 <> [] /\ dr_vars dr4 <> [] /\ NoDup (map dd_name (dr_vars dr4)) /\ dr_lits dr4 /\
  (forall ops gs t', dr_calls fpow 20 evlx dr4 10 = (Val (ops, gs), t') -> Forall exact_op ops) /\ dr_total (std uf rc) stdD dr4 bs4 /\
  dr_minimum (std uf rc) stdD dr4 bs4 (V4 3 0) /\ dr_solution (std uf rc) stdD dr4 bs4 (V4 1 2) /\ ~ dr_minimum (std uf rc) stdD dr4 bs4 (V4 1 2).
Proof. exact dr4_meets. Qed.

(** ** A file without costs for which unsat is printed has no solution.  As C46_unsat_partial, with hypotheses on the file only: its literals are
    finite.  Missing: points where a theory literal is not regular (C01). *)
Theorem C46_file_unsat_partial : forall uf rc fpow n evl fold esub eneg m A L fa term pn mid precision use_worklist k left_first K pico eval d models nx fuel t, let M := std uf rc in
  rc_ok M -> mid_ok mid -> ibex_ok M stdD L -> eneg_faithful M stdD eneg -> sqrt_ok M stdD -> ia_ok M stdD A -> esub_ok M stdD esub -> pico_ok pico -> folds fpow n fold ->
  dr_cost d = [] -> dr_lits d -> dr_run fpow n evl fold K pico (solver_seq esub eneg m (ibex_oracles L esub eneg m fa) term pn (rel_eval A esub) mid precision use_worklist k left_first) mid precision eval d models nx fuel = (Val (Some [OutUnsat]), t) ->
  Forall (exact M) t ->
  exists bs, Forall2 (fun dd b => bound_is M stdD evl (dr_vars d) nx (dd_lb dd) (fst b) /\ bound_is M stdD evl (dr_vars d) nx (dr_ub dd) (snd b)) (dr_vars d) bs /\
  ~ exists V, dr_solution M stdD d bs V /\ forall rho ops gs t' f, dr_reads (dr_vars d) nx V rho -> dr_calls fpow n evl d nx = (Val (ops, gs), t') -> In (OAssert f) ops -> regular M stdD f rho.
Proof. exact dr_file_unsat. Qed.
Print Assumptions C46_file_unsat_partial.

(** ** For a file without costs, "delta-sat with delta = d" is followed by the box b, which is the tightened form of a box at every point of
    which every constraint of the file holds when its comparisons are weakened by d.  Missing: comparisons evaluated over a box that leaves
    their domain (C02). *)
Theorem C46_file_delta_sat_partial : forall uf rc fpow n evl fold esub eneg m A L fa term pn mid precision use_worklist k left_first K pico eval d models nx fuel rest t, let M := std uf rc in
  rc_ok M -> mid_ok mid -> ibex_ok M stdD L -> eneg_faithful M stdD eneg -> sqrt_ok M stdD -> ia_ok M stdD A -> esub_ok M stdD esub -> pico_ok pico -> folds fpow n fold ->
  is_finite precision = true -> (0 < B2R precision)%R -> dr_cost d = [] -> dr_vars d <> [] -> dr_lits d ->
  dr_run fpow n evl fold K pico (solver_seq esub eneg m (ibex_oracles L esub eneg m fa) term pn (rel_eval A esub) mid precision use_worklist k left_first) mid precision eval d models nx fuel =
    (Val (Some (OutDelta precision :: rest)), t) ->
  Forall (exact M) t ->
  exists b B, rest = (if models then [OutModel b] else []) /\ box_ok B /\ b_empty B = false /\
    (forall v, In v (bvars b) -> (exists x, imem x (b_getv B v)) -> tight_ok precision (vty v) (b_getv B v) (b_getv b v)) /\
    forall V rho, dr_reads (dr_vars d) nx V rho -> (forall i, i < length (dr_vars d) -> In (dvar nx i) (bvars B) /\ imem (rho (dvar nx i)) (b_getv B (dvar nx i))) ->
      forall f, In f (dr_ctr d) -> fdef M stdD V f ->
        dweak M V (B2R precision) (excused fpow n evl (unguarded M stdD mid (B2R precision) B) (dr_vars d) nx rho) true f.
Proof. exact dr_file_delta. Qed.
Print Assumptions C46_file_delta_sat_partial.
(** [0, 4] x; 2 y; without and with the constraint x + y >= 8. *)
Example C46_file_example : forall fpow, dr_lits dr1 /\ dr_lits dr5 /\ folds fpow 20 nofold /\ dr_vars dr5 <> [] /\ dr_ctr dr5 <> [] /\
  ekinds (dr_run fpow 20 evlx nofold kplain brute (ex_TT half) ibex_mid half (fun _ _ => i_all) dr1 true 10 20) = Some [0] /\
  ekinds (dr_run fpow 20 evlx nofold kplain brute (ex_TT half) ibex_mid half (fun _ _ => i_all) dr5 true 10 20) = Some [1; 2].
Proof. exact files_meet. Qed.
