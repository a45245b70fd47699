(** * Properties of branch and prune (C03, C04, C05) *)
From Coq Require Import ZArith Reals List Bool.
From Flocq Require Import IEEE754.BinarySingleNaN.
From Verif Require Import Dbl Syntax Sem Interval IntervalProofs MathConv IEval IEvalProofs Contr ContrProofs IbexConv Icp IcpProofs IcpTop IcpPar IcpParProofs IcpParTop
  StdInterp ExamplesForm ExamplesBox ExamplesEval ExamplesContr ExamplesIcp.
Import ListNotations.

(** ** C03: any run length [n], any pruner, evaluators and brancher that are individually sound.
    The answer "no solution" is right; an answer box is part of the start box and, for every
    constraint, is one of: valid, narrow enough, not a reason to branch (a bound on one variable or a
    disequality), unsplittable, or a constraint without variables. *)
Theorem C03_sequential_search_sound : forall M D pr ev brancher precision fs n left_first s r s',
  box_ok (cs_box s) -> int_range (cs_box s) ->
  pruner_sound M D fs pr (bvars (cs_box s)) ->
  (forall f, In f fs -> evaluator_sound M D ev f (bvars (cs_box s))) ->
  brancher_sound brancher ->
  icp_seq pr ev brancher precision n fs left_first s = Some (r, s') ->
  (r = false -> b_empty (cs_box s') = true /\ forall rho, well_typed rho -> in_box rho (cs_box s) -> ~ forall f, In f fs -> solves M D f rho) /\
  (r = true -> box_ok (cs_box s') /\ box_sub (cs_box s') (cs_box s) /\ accepted ev brancher precision fs s').
Proof. exact icp_seq_sound. Qed.
Print Assumptions C03_sequential_search_sound.
Theorem C03_accepted_box : forall ev brancher precision fs s, accepted ev brancher precision fs s -> forall f, In f fs ->
  exists t i, ev f (cs_box s) = Some (t, i) /\ t <> UNSAT /\
    (t = VALID \/ dgt (i_diam i) precision = false \/ is_simple_relational f = true \/ is_neq_pol f true = true \/
     (exists act, brancher (cs_box s) act = Some None /\ forall j, uses (bvars (cs_box s)) f j = true -> act j = true) \/
     forall v, In v (bvars (cs_box s)) -> ~ In v (fvF f)).
Proof. exact accepted_spec. Qed.
Print Assumptions C03_accepted_box.
(** The default brancher is sound. *)
Theorem C03_largest_first_sound : forall mid, mid_ok mid -> brancher_sound (branch_largest mid).
Proof. exact branch_largest_sound. Qed.
Print Assumptions C03_largest_first_sound.
(** So are contractors with sound leaves and the evaluators of comparisons. *)
Theorem C03_contractors_are_sound_pruners : forall M D Orc term m c fs vars, c_ok M D Orc vars c ->
  (forall rho, (forall f, In f fs -> solves M D f rho) -> c_sem M D c rho) -> pruner_sound M D fs (prune Orc term m c) vars.
Proof. exact pruner_of. Qed.
Print Assumptions C03_contractors_are_sound_pruners.
Theorem C03_relational_evaluators_sound : forall M D A esub f vars, ia_ok M D A -> rc_ok M -> (forall v, In v (fvF f) -> In v vars) ->
  (forall e1 e2, lit_sides f = Some (e1, e2) -> esub_faithful M D esub e1 e2) -> evaluator_sound M D (rel_eval A esub) f vars.
Proof. exact evaluator_of. Qed.
Print Assumptions C03_relational_evaluators_sound.
Example C03_hypotheses_met : box_ok exb /\ int_range exb /\ brancher_sound (branch_largest ibex_mid) /\
  forall fs, incl fs (fs_sat ++ fs_unsat) -> pruner_sound Mstd stdD fs (icp_pr fs) (bvars exb) /\ (forall f, In f fs -> evaluator_sound Mstd stdD icp_ev f (bvars exb)).
Proof. exact (conj exb_ok (conj exb_range (conj (branch_largest_sound _ ibex_mid_ok) icp_hyps))). Qed.
Example C03_example : answer (ex_seq fs_sat) = Some true /\ answer (ex_seq fs_unsat) = Some false.
Proof. exact seq_answers. Qed.

(** ** C04: any number of workers, any schedule [sched] *)
Theorem C04_parallel_search_sound : forall M D pr ev mid precision fs left_first jobs sched s r s',
  mid_ok mid -> jobs <> 0%nat -> box_ok (cs_box s) -> int_range (cs_box s) ->
  pruner_sound M D fs pr (bvars (cs_box s)) ->
  (forall f, In f fs -> evaluator_sound M D ev f (bvars (cs_box s))) ->
  icp_par pr ev mid precision fs left_first jobs sched s = Some (r, s') ->
  (r = false -> b_empty (cs_box s') = true /\ forall rho, well_typed rho -> in_box rho (cs_box s) -> ~ forall f, In f fs -> solves M D f rho) /\
  (r = true -> box_ok (cs_box s') /\ box_sub (cs_box s') (cs_box s) /\ exists t, cs_box t = cs_box s' /\ accepted ev (branch_largest mid) precision fs t).
Proof. exact icp_par_sound. Qed.
Print Assumptions C04_parallel_search_sound.
Example C04_example : answer (ex_par fs_sat 2 (robin 2 200)) = Some true /\ answer (ex_par fs_unsat 2 (robin 2 2000)) = Some false /\
  answer (ex_par fs_unsat 3 (repeat 2%nat 3000 ++ robin 3 1000)) = Some false.
Proof. exact par_answers. Qed.

(** ** C05: in every reachable state the counter is the number of queued boxes plus the number of
    boxes the workers hold ([held]); it is never negative, and a worker reading 0 leaves nothing behind. *)
Theorem C05_counter_exact : forall pr ev mid precision fs left_first jobs s sched st,
  par_run pr ev mid precision fs sched (par_init left_first jobs s) = Some st ->
  p_count st = Z.of_nat (length (p_stack st) + list_sum (map held (p_ws st))).
Proof. exact reachable_counted. Qed.
Print Assumptions C05_counter_exact.
Theorem C05_exhausted_means_explored : forall pr ev mid precision fs left_first jobs s sched st,
  par_run pr ev mid precision fs sched (par_init left_first jobs s) = Some st ->
  (0 <= p_count st)%Z /\ ((p_count st <= 0)%Z -> p_stack st = [] /\ forall w, In w (p_ws st) -> held w = 0%nat).
Proof. exact reachable_exhausted. Qed.
Print Assumptions C05_exhausted_means_explored.
(** Counter, queued boxes, boxes held, at five moments of a search by two workers. *)
Example C05_example : ex_counts [] = Some (1%Z, 1%nat, 0%nat) /\ ex_counts (robin 2 5) = Some (2%Z, 0%nat, 2%nat) /\ ex_counts (robin 2 15) = Some (4%Z, 1%nat, 3%nat) /\
  ex_counts (robin 2 25) = Some (4%Z, 3%nat, 1%nat) /\ ex_counts (robin 2 50) = Some (0%Z, 0%nat, 0%nat).
Proof. exact ex_counts_run. Qed.
