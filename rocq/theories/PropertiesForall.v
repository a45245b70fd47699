(** * Properties of quantified constraints: C32, C33 *)
From Coq Require Import ZArith Reals List Bool.
From Flocq Require Import IEEE754.BinarySingleNaN.
From Verif Require Import Dbl Syntax Sem SpecForm FormulaCons Interval MathConv IEval IEvalProofs ExprAlg SpecAlg DeltaStr Contr ContrProofs IbexConv IbexConvProofs Icp IcpProofs IcpPar Filter Theory TheoryUsed
  IteElim SpecIte Regular Wff Scoped Sat Context SpecCtx SpecApi CtxInv CtxTop CtxModelTop StdInterp Forall SpecForall ForallInner ForallProofs ForallEval
  ExamplesForm ExamplesBox ExamplesEval ExamplesContr ExamplesIcp ExamplesIte ExamplesCtx ExamplesForall.
Import ListNotations.

(** ** C32.  Along every sequence of evaluations of boxes over the free variables, each inside the one before, with any correct SAT
    solver, any sound IBEX and interval arithmetic, any branching order: if the evaluator answers VALID on a box, the formula under the
    quantifier holds up to epsilon at every point of the box and for all values of the quantified variables.
    Left out: exactness (VALID is up to epsilon; refuted below), boxes not nested (refuted below), boxes with variables not free in the
    formula (refuted below), points next to a strict bound ([regular]), Int values outside the range of int, if-then-else terms. *)
Theorem C32_valid_partial :
  forall uf rc fold esub eneg m A L fa term pn mid precision use_worklist k left_first K pico nx fpow n kk ev qs g eps h t ops c0 c1 bs fuel rs, let M := std uf rc in
  rc_ok M -> mid_ok mid -> ibex_ok M stdD L -> eneg_faithful M stdD eneg -> sqrt_ok M stdD -> ia_ok M stdD A -> esub_ok M stdD esub -> pico_ok pico ->
  let T := solver_seq esub eneg m (ibex_oracles L esub eneg m fa) term pn (rel_eval A esub) mid precision use_worklist k left_first in
  is_finite eps = true -> (0 < B2R eps)%R -> hasIteF g = false -> NoDup qs -> fresh_ids (fvF (FForall qs g)) nx ->
  fe_setup fpow n kk (FForall qs g) eps = (Val ops, t) -> DeltaStrengthen fpow n kk (mk_not g) eps = (Val h, t) -> Forall (exact M) t ->
  cx_run fold K pico T mid precision ops (cx_init nx) = Some (c0, []) -> admissible M stdD fold K nx ops [] (p_empty, []) -> ints_ok use_worklist ops ->
  (forall b, In b bs -> box_ok b /\ forall v, In v (bvars b) <-> In v (fvF (FForall qs g))) -> nested (fvF (FForall qs g)) default_dm bs ->
  fe_evals fold K pico T mid precision ev (FForall qs g) fuel bs c0 = Some (c1, rs) ->
  Forall2 (fun b r => fst r = VALID ->
    forall rho, well_typed rho -> in_box rho b -> (forall q, In q qs -> dom0 (vty q) (rho q)) -> defF M stdD g rho -> regular M stdD h rho -> slack M (- B2R eps) g rho) bs rs.
Proof.
  exact (fun uf rc fold esub eneg m A L fa term pn mid precision wl k lf K pico nx fpow n kk ev qs g eps h t ops c0 c1 bs fuel rs RC Hm HL HN HS HA HD HP =>
    fe_top uf rc fold mid precision wl RC K pico _ nx HP (T_seq (std uf rc) stdD fold esub eneg m A L fa term pn mid precision wl RC Hm HL HN HS HA HD k lf) fpow n kk ev qs g eps h t ops c0 c1 bs fuel rs).
Qed.
Print Assumptions C32_valid_partial.
(** The same when the inner context runs worker threads, under any schedule. *)
Theorem C32_parallel_valid_partial :
  forall uf rc fold esub eneg m A L fa term pn mid precision use_worklist left_first jobs sched K pico nx fpow n kk ev qs g eps h t ops c0 c1 bs fuel rs, let M := std uf rc in
  rc_ok M -> mid_ok mid -> ibex_ok M stdD L -> eneg_faithful M stdD eneg -> sqrt_ok M stdD -> ia_ok M stdD A -> esub_ok M stdD esub -> pico_ok pico -> jobs <> 0 ->
  let T := solver_par esub eneg m (ibex_oracles L esub eneg m fa) term pn (rel_eval A esub) mid precision use_worklist left_first jobs sched in
  is_finite eps = true -> (0 < B2R eps)%R -> hasIteF g = false -> NoDup qs -> fresh_ids (fvF (FForall qs g)) nx ->
  fe_setup fpow n kk (FForall qs g) eps = (Val ops, t) -> DeltaStrengthen fpow n kk (mk_not g) eps = (Val h, t) -> Forall (exact M) t ->
  cx_run fold K pico T mid precision ops (cx_init nx) = Some (c0, []) -> admissible M stdD fold K nx ops [] (p_empty, []) -> ints_ok use_worklist ops ->
  (forall b, In b bs -> box_ok b /\ forall v, In v (bvars b) <-> In v (fvF (FForall qs g))) -> nested (fvF (FForall qs g)) default_dm bs ->
  fe_evals fold K pico T mid precision ev (FForall qs g) fuel bs c0 = Some (c1, rs) ->
  Forall2 (fun b r => fst r = VALID ->
    forall rho, well_typed rho -> in_box rho b -> (forall q, In q qs -> dom0 (vty q) (rho q)) -> defF M stdD g rho -> regular M stdD h rho -> slack M (- B2R eps) g rho) bs rs.
Proof.
  exact (fun uf rc fold esub eneg m A L fa term pn mid precision wl lf jobs sched K pico nx fpow n kk ev qs g eps h t ops c0 c1 bs fuel rs RC Hm HL HN HS HA HD HP J =>
    fe_top uf rc fold mid precision wl RC K pico _ nx HP (T_par (std uf rc) stdD fold esub eneg m A L fa term pn mid precision wl RC Hm HL HN HS HA HD lf jobs sched J) fpow n kk ev qs g eps h t ops c0 c1 bs fuel rs).
Qed.
Print Assumptions C32_parallel_valid_partial.
Example C32_hypotheses_met : is_finite quarter = true /\ (0 < B2R quarter)%R /\ hasIteF body1 = false /\ NoDup [vy] /\ fresh_ids (fvF fa1) 10 /\ exists t ops c0 c1 rs,
  fe_setup (fun a _ => a) 20 20 fa1 quarter = (Val ops, t) /\ DeltaStrengthen (fun a _ => a) 20 20 (mk_not body1) quarter = (Val neg1, t) /\ Forall (exact Mstd) t /\
  run_ex ex_T ops = Some (c0, []) /\ admissible Mstd stdD nofold kplain 10 ops [] (p_empty, []) /\ ints_ok false ops /\
  (forall b, In b [b1 4; b1 1] -> box_ok b /\ forall v, In v (bvars b) <-> In v (fvF fa1)) /\ nested (fvF fa1) default_dm [b1 4; b1 1] /\
  evals_ex fa1 [b1 4; b1 1] c0 = Some (c1, rs) /\ map fst rs = [UNKNOWN; VALID] /\
  well_typed (at2 1 1) /\ in_box (at2 1 1) (b1 1) /\ defF Mstd stdD body1 (at2 1 1) /\ regular Mstd stdD neg1 (at2 1 1).
Proof. exact (conj quarter_fin (conj quarter_pos (conj eq_refl (conj (NoDup_cons _ (fun x : In vy [] => x) (NoDup_nil _)) (conj fresh1 fa1_meets))))). Qed.
(** Clauses learned on an earlier box remain: after x in [0,1], the box x in [0,4] is reported VALID although the formula is false at x = 4. *)
Theorem C32_earlier_boxes_refuted : exists t c rs,
  fe_life nofold kplain brute ex_T ibex_mid half (fun a _ => a) 20 20 icp_ev fa1 quarter 10 20 [b1 1; b1 4] = (Val (Some (c, rs)), t) /\ Forall (exact Mstd) t /\
  map fst rs = [VALID; VALID] /\ exists rho, well_typed rho /\ in_box rho (b1 4) /\ ~ holds Mstd fa1 rho.
Proof. exact grown_wrong. Qed.
Print Assumptions C32_earlier_boxes_refuted.
(** A variable of the box that is not free in the formula overwrites the first variable of the inner context. *)
Theorem C32_other_variables_refuted : exists t c rs,
  fe_life nofold kplain brute ex_T ibex_mid half (fun a _ => a) 20 20 icp_ev fa1 quarter 10 20 [b2] = (Val (Some (c, rs)), t) /\ Forall (exact Mstd) t /\
  map fst rs = [VALID] /\ exists rho, well_typed rho /\ in_box rho b2 /\ ~ holds Mstd fa1 rho.
Proof. exact other_wrong. Qed.
Print Assumptions C32_other_variables_refuted.
(** VALID holds up to epsilon only: on the box x = 5/4, where the formula is false. *)
Theorem C32_exact_refuted : exists t c rs,
  fe_life nofold kplain brute ex_T ibex_mid half (fun a _ => a) 20 20 icp_ev fa1 quarter 10 20 [bq] = (Val (Some (c, rs)), t) /\ Forall (exact Mstd) t /\
  map fst rs = [VALID] /\ exists rho, well_typed rho /\ in_box rho bq /\ ~ holds Mstd fa1 rho.
Proof. exact near_wrong. Qed.
Print Assumptions C32_exact_refuted.

(** ** C33.  Along every sequence of prunings, whatever counterexamples the inner solver finds and however they are refined: each
    box returned lies in the box given and contains every point of it at which the quantified formula is defined and true.
    Left out: variables that are not reals, and formulas whose bounds on the quantified variables contradict each other (refuted below). *)
Theorem C33_pruning_partial :
  forall M D fold esub eneg m A L fa term pn mid precision use_worklist k left_first K pico nx refine fpow n kk use_polytope qs g vars eps ops ctc t c0 b0 c1 bs fuel rounds bs',
  rc_ok M -> mid_ok mid -> ibex_ok M D L -> eneg_faithful M D eneg -> sqrt_ok M D -> ia_ok M D A -> esub_ok M D esub -> pico_ok pico -> is_finite precision = true -> (0 < B2R precision)%R ->
  let T := solver_seq esub eneg m (ibex_oracles L esub eneg m fa) term pn (rel_eval A esub) mid precision use_worklist k left_first in
  NoDup (vars ++ qs) -> vars ++ qs <> [] -> (forall v, In v (vars ++ qs) -> vty v = CONTINUOUS) ->
  unfolded fold g -> consts_finite g -> (forall v, In v (fvF g) -> In v (vars ++ qs)) -> refine_ok refine (vars ++ qs) ->
  fc_setup fold fpow n kk esub eneg m use_polytope (FForall qs g) vars eps = (Val (ops, Some ctc), t) ->
  cx_run fold K pico T mid precision ops (cx_init nx) = Some (c0, []) -> admissible M D fold K nx ops [] (p_empty, []) -> cx_box c0 = Some b0 -> b_full b0 ->
  (forall b, In b bs -> box_ok b /\ b_full b /\ bvars b = vars) ->
  fc_prunes fold K pico T mid precision (ibex_oracles L esub eneg m fa) term pn refine (FForall qs g) ctc fuel rounds bs c0 = Some (c1, bs') ->
  Forall2 (fun b b' => box_sub b' b /\ forall rho, in_box rho b -> solves M D (FForall qs g) rho -> in_box rho b') bs bs'.
Proof.
  exact (fun M D fold esub eneg m A L fa term pn mid precision wl k lf K pico nx refine fpow n kk up qs g vars eps ops ctc t c0 b0 c1 bs fuel rounds bs' RC Hm HL HN HS HA HD HP Fp Pp H1 H2 H3 H4 H5 H6 H7 H8 H9 H10 H11 H12 H13 H14 =>
    step_box M D _ _ _ (fc_top M D fold esub eneg m L fa term pn mid precision wl RC Hm HL HN HS HD K pico _ nx HP
      (T_seq M D fold esub eneg m A L fa term pn mid precision wl RC Hm HL HN HS HA HD k lf) (T_box_seq M D fold esub eneg m A L fa term pn mid precision wl RC Hm HL HN HS HA HD k lf)
      (T_full_seq M D fold esub eneg m A L fa term pn mid precision wl RC Hm HL HN HS HA HD k lf) Fp Pp refine fpow n kk up qs g vars eps ops ctc t c0 b0 c1 bs fuel rounds bs' H1 H2 H3 H4 H5 H6 H7 H8 H9 H10 H11 H12 H13 H14)).
Qed.
Print Assumptions C33_pruning_partial.
Theorem C33_parallel_pruning_partial :
  forall M D fold esub eneg m A L fa term pn mid precision use_worklist left_first jobs sched K pico nx refine fpow n kk use_polytope qs g vars eps ops ctc t c0 b0 c1 bs fuel rounds bs',
  rc_ok M -> mid_ok mid -> ibex_ok M D L -> eneg_faithful M D eneg -> sqrt_ok M D -> ia_ok M D A -> esub_ok M D esub -> pico_ok pico -> jobs <> 0 -> is_finite precision = true -> (0 < B2R precision)%R ->
  let T := solver_par esub eneg m (ibex_oracles L esub eneg m fa) term pn (rel_eval A esub) mid precision use_worklist left_first jobs sched in
  NoDup (vars ++ qs) -> vars ++ qs <> [] -> (forall v, In v (vars ++ qs) -> vty v = CONTINUOUS) ->
  unfolded fold g -> consts_finite g -> (forall v, In v (fvF g) -> In v (vars ++ qs)) -> refine_ok refine (vars ++ qs) ->
  fc_setup fold fpow n kk esub eneg m use_polytope (FForall qs g) vars eps = (Val (ops, Some ctc), t) ->
  cx_run fold K pico T mid precision ops (cx_init nx) = Some (c0, []) -> admissible M D fold K nx ops [] (p_empty, []) -> cx_box c0 = Some b0 -> b_full b0 ->
  (forall b, In b bs -> box_ok b /\ b_full b /\ bvars b = vars) ->
  fc_prunes fold K pico T mid precision (ibex_oracles L esub eneg m fa) term pn refine (FForall qs g) ctc fuel rounds bs c0 = Some (c1, bs') ->
  Forall2 (fun b b' => box_sub b' b /\ forall rho, in_box rho b -> solves M D (FForall qs g) rho -> in_box rho b') bs bs'.
Proof.
  exact (fun M D fold esub eneg m A L fa term pn mid precision wl lf jobs sched K pico nx refine fpow n kk up qs g vars eps ops ctc t c0 b0 c1 bs fuel rounds bs' RC Hm HL HN HS HA HD HP J Fp Pp H1 H2 H3 H4 H5 H6 H7 H8 H9 H10 H11 H12 H13 H14 =>
    step_box M D _ _ _ (fc_top M D fold esub eneg m L fa term pn mid precision wl RC Hm HL HN HS HD K pico _ nx HP
      (T_par M D fold esub eneg m A L fa term pn mid precision wl RC Hm HL HN HS HA HD lf jobs sched J) (T_box_par M D fold esub eneg m A L fa term pn mid precision wl RC Hm HL HN HS HA HD lf jobs sched)
      (T_full_par M D fold esub eneg m A L fa term pn mid precision wl RC Hm HL HN HS HA HD lf jobs sched) Fp Pp refine fpow n kk up qs g vars eps ops ctc t c0 b0 c1 bs fuel rounds bs' H1 H2 H3 H4 H5 H6 H7 H8 H9 H10 H11 H12 H13 H14)).
Qed.
Print Assumptions C33_parallel_pruning_partial.
(** For all y: y >= 2 or y <= -1 or x <= 3.  [0,4] becomes [0,3], [0,1] stays, [3,4] becomes [3,3], [4,5] becomes empty. *)
Example C33_hypotheses_met : exists ctc t c0 b0 c1,
  NoDup ([vx] ++ [vy]) /\ (forall v, In v ([vx] ++ [vy]) -> vty v = CONTINUOUS) /\ unfolded nofold body2 /\ consts_finite body2 /\ (forall v, In v (fvF body2) -> In v ([vx] ++ [vy])) /\
  refine_ok (fun b => b) ([vx] ++ [vy]) /\
  setup_ex fa2 = (Val (fops2, Some ctc), t) /\ run_ex ex_T fops2 = Some (c0, []) /\ admissible Mstd stdD nofold kplain 10 fops2 [] (p_empty, []) /\ cx_box c0 = Some b0 /\ b_full b0 /\
  (forall b, In b [bx 0 4; bx 0 1; bx 3 4; bx 4 5] -> box_ok b /\ b_full b /\ bvars b = [vx]) /\
  prunes_ex fa2 [bx 0 4; bx 0 1; bx 3 4; bx 4 5] ctc c0 = Some (c1, [bx 0 3; bx 0 1; bx 3 3; bx_none]).
Proof. exact fa2_meets. Qed.
(** For all y: y >= 0 or y <= 1.  It is true, and the box is pruned to the empty box. *)
Theorem C33_contradictory_bounds_refuted : exists t c,
  fc_life nofold kplain brute ex_T ibex_mid half (fun a _ => a) 20 20 plain_sub plain_neg 10 lib_orc default_term 20 false (fun b => b) fa3 [vx] quarter 10 20 20 [bx 0 4] =
    (Val (Some (c, [bx_none])), t) /\ Forall (exact Mstd) t /\ forall rho, holds Mstd fa3 rho.
Proof. exact fa3_wrong. Qed.
Print Assumptions C33_contradictory_bounds_refuted.
