(** * Errors during the parallel search (C59) *)
From Coq Require Import ZArith Reals List Bool.
From Flocq Require Import IEEE754.BinarySingleNaN.
From Verif Require Import Dbl Syntax Sem Interval IntervalProofs MathConv IEval IEvalProofs Contr ContrProofs IbexConv Icp IcpProofs IcpTop IcpPar IcpParProofs IcpParTop
  StdInterp ExamplesForm ExamplesBox ExamplesEval ExamplesContr ExamplesIcp IcpParX IcpParXProofs IcpParXTop ExamplesIcpParX.
Import ListNotations.

(** ** An error never becomes an answer: for every sequence of events (steps of any worker, errors,
    Ctrl-C), if the call returns then its answer is as right as that of C04, ... *)
Theorem C59_answers_sound : forall M D pr ev mid precision fs left_first check jobs es s r s',
  mid_ok mid -> jobs <> 0%nat -> box_ok (cs_box s) -> int_range (cs_box s) ->
  pruner_sound M D fs pr (bvars (cs_box s)) ->
  (forall f, In f fs -> evaluator_sound M D ev f (bvars (cs_box s))) ->
  check_sat pr ev mid precision fs left_first check jobs es s = Returned r s' ->
  (r = false -> b_empty (cs_box s') = true /\ forall rho, well_typed rho -> in_box rho (cs_box s) -> ~ forall f, In f fs -> solves M D f rho) /\
  (r = true -> box_ok (cs_box s') /\ box_sub (cs_box s') (cs_box s) /\ exists t, cs_box t = cs_box s' /\ accepted ev (branch_largest mid) precision fs t).
Proof. exact answers_sound. Qed.
Print Assumptions C59_answers_sound.
(** ... and no worker has thrown. *)
Theorem C59_answer_means_no_error : forall pr ev mid precision fs left_first check jobs es s s1 x r s',
  jobs <> 0%nat -> pr s = Some s1 -> xrun pr ev mid precision fs check jobs s1 es (xinit left_first jobs s1) = Some x -> x_caller x = Answered r s' ->
  x_thrown x = [].
Proof. exact (fun pr ev mid p fs lf c j es s s1 x r s' J => answered_nothing_thrown pr ev mid p fs lf c j J es s s1 x r s'). Qed.
Print Assumptions C59_answer_means_no_error.
(** ** The call fails, or runs into undefined behaviour, only after Ctrl-C in the Python package or after
    pruning or evaluating a box raised an error. *)
Theorem C59_failures_have_a_cause : forall pr ev mid precision fs left_first check jobs es s s1, jobs <> 0%nat -> pr s = Some s1 ->
  check_sat pr ev mid precision fs left_first check jobs es s = Undefined \/ check_sat pr ev mid precision fs left_first check jobs es s = Threw ->
  (check = true /\ In Signal es) \/
  exists a t i w, par_run pr ev mid precision fs a (par_init left_first jobs s1) = Some t /\ nth_error (p_ws t) i = Some w /\ w_pc w = PWork /\
    icp_step pr ev (branch_largest mid) precision fs (w_cs w) = None.
Proof. exact (fun pr ev mid p fs lf c j es s s1 J => causes pr ev mid p fs lf c j J es s s1). Qed.
Print Assumptions C59_failures_have_a_cause.
Example C59_example :
  answered (check_sat (icp_pr fs_sat) icp_ev ibex_mid half fs_sat true true 2 (map Run (robin 2 200)) (cs_new exb None)) = Some true /\
  answered (check_sat (icp_pr fs_unsat) icp_ev ibex_mid half fs_unsat true true 2 (map Run (robin 2 200)) (cs_new exb None)) = Some false.
Proof. exact quiet_runs. Qed.

(** ** Not every error is reported.  A worker of the pool that throws takes its box with it: until some
    worker accepts a box, or the calling thread throws, the call goes on. *)
Theorem C59_lost_box_blocks : forall pr ev mid precision fs left_first check jobs s1 es x i w, jobs <> 0%nat ->
  xrun pr ev mid precision fs check jobs s1 es (xinit left_first jobs s1) = Some x -> In i (x_thrown x) ->
  nth_error (p_ws (x_st x)) i = Some w -> w_pc w = PWork -> p_found (x_st x) = None -> ~ In (last_index jobs) (x_thrown x) ->
  x_caller x = Collecting 0.
Proof. exact (fun pr ev mid p fs lf c j s1 es x i w J => blocked pr ev mid p fs lf c j J s1 es x i w). Qed.
Print Assumptions C59_lost_box_blocks.
(** If the first box raises an error in a worker of the pool, the call never returns, whatever happens
    next; for the constraint f(n) != 0, where the sequential search throws. *)
Theorem C59_error_hangs : forall pr ev mid precision fs left_first jobs s1, (2 <= jobs)%nat ->
  icp_step pr ev (branch_largest mid) precision fs s1 = None -> forall s es, pr s = Some s1 -> b_empty (cs_box s1) = false ->
  check_sat pr ev mid precision fs left_first false jobs ([Run 0; Run 0; Run 0; Run 0] ++ es) s = Running.
Proof. exact (fun pr ev mid p fs lf j s1 J => hang pr ev mid p fs lf j J s1). Qed.
Print Assumptions C59_error_hangs.
Theorem C59_error_not_reported_refuted :
  (forall n, icp_seq uf_pr icp_ev (branch_largest ibex_mid) half n fs_uf true uf_s = None) /\
  forall es, check_sat uf_pr icp_ev ibex_mid half fs_uf true false 2 ([Run 0; Run 0; Run 0; Run 0] ++ es) uf_s = Running.
Proof. exact uf_hangs. Qed.
Print Assumptions C59_error_not_reported_refuted.
(** ** An error in the calling thread leaves the workers of the pool with references to variables that no
    longer exist: for the same constraint, and for Ctrl-C on any problem in the Python package. *)
Theorem C59_error_in_caller_refuted :
  check_sat uf_pr icp_ev ibex_mid half fs_uf true false 2 [Run 1; Run 1; Run 1; Run 1] uf_s = Threw /\
  check_sat uf_pr icp_ev ibex_mid half fs_uf true false 2 [Run 1; Run 1; Run 1; Run 1; Run 0] uf_s = Undefined.
Proof. exact uf_dangling. Qed.
Print Assumptions C59_error_in_caller_refuted.
Theorem C59_interrupt_refuted : forall pr ev mid precision fs left_first s s1, pr s = Some s1 -> b_empty (cs_box s1) = false ->
  check_sat pr ev mid precision fs left_first true 2 [Signal; Run 1; Run 1] s = Threw /\
  check_sat pr ev mid precision fs left_first true 2 [Signal; Run 1; Run 1; Run 0] s = Undefined.
Proof. exact interrupted. Qed.
Print Assumptions C59_interrupt_refuted.
