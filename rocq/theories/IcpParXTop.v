(** Answers of the parallel search with errors are sound. *)
From Coq Require Import ZArith Reals Lia List Bool.
From Flocq Require Import IEEE754.BinarySingleNaN.
From Verif Require Import Dbl Syntax Sem Interval IntervalProofs MathConv IEval Contr ContrProofs Icp IcpProofs IcpTop IcpPar IcpParProofs IcpParTop IcpParX IcpParXProofs.
Import ListNotations.
Lemma answers_sound M D pr ev mid precision fs lf check jobs es s r s' :
  mid_ok mid -> jobs <> 0%nat -> box_ok (cs_box s) -> int_range (cs_box s) ->
  pruner_sound M D fs pr (bvars (cs_box s)) ->
  (forall f, In f fs -> evaluator_sound M D ev f (bvars (cs_box s))) ->
  check_sat pr ev mid precision fs lf check jobs es s = Returned r s' ->
  (r = false -> b_empty (cs_box s') = true /\ forall rho, well_typed rho -> in_box rho (cs_box s) -> ~ forall f, In f fs -> solves M D f rho) /\
  (r = true -> box_ok (cs_box s') /\ box_sub (cs_box s') (cs_box s) /\ exists t, cs_box t = cs_box s' /\ accepted ev (branch_largest mid) precision fs t).
Proof.
  intros Hm J K HR Hp He E. destruct (answered_plain pr ev mid precision fs lf check jobs J es s r s' E) as [sched E'].
  eapply icp_par_sound; eauto.
Qed.
