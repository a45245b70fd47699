(** * Properties of the theory solver's explanations (C09) and of the intersection test (C45) *)
From Coq Require Import ZArith Reals List Bool Sorting.Sorted.
From Flocq Require Import IEEE754.BinarySingleNaN.
From Verif Require Import Dbl Syntax Sem Interval IntervalProofs MathConv IEval IEvalProofs Contr ContrProofs IbexConv IbexConvProofs Icp IcpProofs IcpTop IcpPar IcpParProofs IcpParTop
  Filter FilterProofs Theory ExplainProofs TheoryProofs TheoryUsed TheoryTop VarSet VarSetProofs StdInterp ExamplesForm ExamplesBox ExamplesEval ExamplesContr ExamplesIcp ExamplesTheory.
Import ListNotations.

(** ** C09.  The explanation is part of the constraints checked, and no assignment of the box satisfies
    all of it.  Any contractor and evaluator oracles that are individually sound, any number of steps.
    Left out: assignments in the one-double gap next to a strict bound (see C17), the polytope option,
    the worklist option together with integer variables. *)
Theorem C09_explanation_unsat_partial : forall M D Orc term m esub eneg n ev mid precision use_worklist k left_first fs b E,
  rc_ok M -> mid_ok mid -> box_ok b -> int_range b ->
  (forall f, In f fs -> (forall v, In v (fvF f) -> In v (bvars b)) /\ finF f /\
     (forall c, lit_ctc esub eneg n (bvars b) f = Some c -> c_ok M D Orc (bvars b) c) /\
     evaluator_local M D ev f (bvars b)) ->
  (use_worklist = true -> forall v, In v (bvars b) -> is_int_type (vty v) = false) ->
  theory_check esub eneg n use_worklist false (search_seq Orc term m ev mid precision k left_first fs) b fs = Some (TUnsat E) ->
  incl E fs /\
  forall rho, well_typed rho -> in_box rho b -> (forall f, In f E -> gap_free f rho) -> ~ (forall f, In f E -> solves M D f rho).
Proof.
  exact (fun M D Orc term m esub eneg n ev mid precision wl k lf fs b E RC Hm K HR H Hw =>
    theory_seq M D Orc term m esub eneg n fs b RC (fun f v Hf => proj1 (H f Hf) v) (fun f Hf => proj1 (proj2 (H f Hf)))
      (fun f c Hf => proj1 (proj2 (proj2 (H f Hf))) c) ev (fun f Hf => proj2 (proj2 (proj2 (H f Hf)))) mid Hm HR precision wl k lf E K Hw).
Qed.
Print Assumptions C09_explanation_unsat_partial.
(** The same with any number of worker threads under any schedule. *)
Theorem C09_parallel_explanation_unsat_partial : forall M D Orc term m esub eneg n ev mid precision use_worklist left_first jobs sched fs b E,
  rc_ok M -> mid_ok mid -> box_ok b -> int_range b -> jobs <> 0%nat ->
  (forall f, In f fs -> (forall v, In v (fvF f) -> In v (bvars b)) /\ finF f /\
     (forall c, lit_ctc esub eneg n (bvars b) f = Some c -> c_ok M D Orc (bvars b) c) /\
     evaluator_local M D ev f (bvars b)) ->
  (use_worklist = true -> forall v, In v (bvars b) -> is_int_type (vty v) = false) ->
  theory_check esub eneg n use_worklist false (search_par Orc term m ev mid precision left_first jobs sched fs) b fs = Some (TUnsat E) ->
  incl E fs /\
  forall rho, well_typed rho -> in_box rho b -> (forall f, In f E -> gap_free f rho) -> ~ (forall f, In f E -> solves M D f rho).
Proof.
  exact (fun M D Orc term m esub eneg n ev mid precision wl lf jobs sched fs b E RC Hm K HR J H Hw =>
    theory_par M D Orc term m esub eneg n fs b RC (fun f v Hf => proj1 (H f Hf) v) (fun f Hf => proj1 (proj2 (H f Hf)))
      (fun f c Hf => proj1 (proj2 (proj2 (H f Hf))) c) ev (fun f Hf => proj2 (proj2 (proj2 (H f Hf)))) mid Hm HR precision wl lf jobs sched E J K Hw).
Qed.
Print Assumptions C09_parallel_explanation_unsat_partial.
(** The contractors built from IBEX and the evaluators of comparisons meet the hypotheses. *)
Theorem C09_ibex_contractors : forall M D L esub eneg n fa vars f c, ibex_ok M D L -> eneg_faithful M D eneg -> sqrt_ok M D ->
  (forall v, In v (fvF f) -> In v vars) -> (is_forall f = false -> side_ok M D esub f) ->
  (is_forall f = true -> fa_ok M D (ibex_oracles L esub eneg n fa) f vars) ->
  lit_ctc esub eneg n vars f = Some c -> c_ok M D (ibex_oracles L esub eneg n fa) vars c.
Proof. exact lit_ctc_ok. Qed.
Print Assumptions C09_ibex_contractors.
Theorem C09_relational_evaluators : forall M D A esub f vars, ia_ok M D A -> rc_ok M -> (forall v, In v (fvF f) -> In v vars) ->
  (forall e1 e2, lit_sides f = Some (e1, e2) -> esub_faithful M D esub e1 e2) -> evaluator_local M D (rel_eval A esub) f vars.
Proof. exact evaluator_local_of. Qed.
Print Assumptions C09_relational_evaluators.
Example C09_hypotheses_met : box_ok exb3 /\ int_range exb3 /\ mid_ok ibex_mid /\ rc_ok Mstd /\
  forall f, In f fs_th -> (forall v, In v (fvF f) -> In v (bvars exb3)) /\ finF f /\
    (forall c, lit_ctc plain_sub plain_neg 10 (bvars exb3) f = Some c -> c_ok Mstd stdD lib_orc (bvars exb3) c) /\
    evaluator_local Mstd stdD icp_ev f (bvars exb3).
Proof. exact (conj exb3_ok (conj exb3_range (conj ibex_mid_ok (conj Mstd_rc th_hyps)))). Qed.
Example C09_runs : expl_of (th_seq fs_th) = Some 2%nat /\ expl_of (th_par fs_th) = Some 2%nat /\ expl_of (th_seq fs_th_sat) = None.
Proof. exact th_answers. Qed.
Example C09_leaves_a_constraint_out : match th_seq fs_th with Some (TUnsat E) => mem_form f_y3 E | _ => true end = false.
Proof. exact th_leaves_out. Qed.
(** With the polytope option the statement fails: the explanation can be empty although the box is not. *)
Theorem C09_polytope_refuted :
  box_ok exi /\ (forall f, In f fs_p -> fwd_ok Mstd stdD poly_orc f (bvars exi)) /\ poly_ok Mstd stdD poly_orc fs_p (bvars exi) /\
  theory_check plain_sub plain_neg 10 false true (search_seq poly_orc default_term 20 icp_ev ibex_mid tight_precision 200 true fs_p) exi fs_p = Some (TUnsat []) /\
  exists rho, well_typed rho /\ in_box rho exi.
Proof. exact (conj exi_ok (conj (proj1 poly_orc_ok) (conj (proj2 poly_orc_ok) (conj th_poly_answer (ex_intro _ (fun _ => R0) exi_point))))). Qed.
Print Assumptions C09_polytope_refuted.

(** ** C45: the test on two variable sets, each built by any sequence of insertions *)
Theorem C45_have_intersection : forall l1 l2,
  have_intersection (vs_of l1) (vs_of l2) = true <-> exists a b, In a l1 /\ In b l2 /\ vid a = vid b.
Proof. exact have_intersection_spec. Qed.
Print Assumptions C45_have_intersection.
Theorem C45_sets_are_ordered : forall l, StronglySorted (fun a b => vid a < vid b)%nat (vs_of l) /\ forall i, In i (map vid (vs_of l)) <-> In i (map vid l).
Proof. exact vs_of_spec. Qed.
Print Assumptions C45_sets_are_ordered.
Example C45_example : have_intersection (vs_of [vi; vx; vy]) (vs_of [vz; vy]) = true /\ have_intersection (vs_of [vi; vx]) (vs_of [vz; vy]) = false.
Proof. vm_compute. auto. Qed.
