(** A constraint whose evaluation raises an error on every box, and runs on it. *)
From Coq Require Import ZArith Reals List Bool Lia.
From Flocq Require Import IEEE754.BinarySingleNaN.
From Verif Require Import Dbl Syntax Sem Interval IntervalProofs MathConv IEval IEvalProofs Contr ContrProofs IbexConv Icp IcpProofs IcpTop IcpPar IcpParProofs IcpParTop
  StdInterp ExamplesForm ExamplesBox ExamplesEval ExamplesContr ExamplesIcp IcpParX IcpParXProofs.
Import ListNotations.
#[local] Opaque dZ mkd.

(** f(n) != 0 for an uninterpreted f: no contractor is made for a disequality, and its evaluator throws. *)
Definition fs_uf : list formula := [FRel RNeq (EUf 0 [vi]) (EConst dzero)].
Definition uf_pr : cstat -> option cstat := fun s => Some s.
Definition uf_s : cstat := cs_new exb None.
Lemma uf_pruner M D vars : pruner_sound M D fs_uf uf_pr vars.
Proof.
  intros s s' K Ev E. apply some_inj in E. subst s'. split; auto. split; [apply box_sub_refl|auto].
Qed.
Lemma uf_step : icp_step uf_pr icp_ev (branch_largest ibex_mid) half fs_uf uf_s = None.
Proof. reflexivity. Qed.
Lemma uf_open : b_empty (cs_box uf_s) = false.
Proof. vm_compute. reflexivity. Qed.
(** A run with answer in the model with exceptions. *)
Definition answered (p : progress) : option bool := match p with Returned r _ => Some r | _ => None end.
Lemma quiet_runs :
  answered (check_sat (icp_pr fs_sat) icp_ev ibex_mid half fs_sat true true 2 (map Run (robin 2 200)) (cs_new exb None)) = Some true /\
  answered (check_sat (icp_pr fs_unsat) icp_ev ibex_mid half fs_unsat true true 2 (map Run (robin 2 200)) (cs_new exb None)) = Some false.
Proof. vm_compute. auto. Qed.
Lemma uf_hangs :
  (forall n, icp_seq uf_pr icp_ev (branch_largest ibex_mid) half n fs_uf true uf_s = None) /\
  forall es, check_sat uf_pr icp_ev ibex_mid half fs_uf true false 2 ([Run 0; Run 0; Run 0; Run 0] ++ es) uf_s = Running.
Proof.
  split; [intros n; apply seq_throws; exact uf_step|]. intros es. apply (hang uf_pr icp_ev ibex_mid half fs_uf true 2 ltac:(lia) uf_s uf_step uf_s es eq_refl uf_open).
Qed.
Lemma uf_dangling :
  check_sat uf_pr icp_ev ibex_mid half fs_uf true false 2 [Run 1; Run 1; Run 1; Run 1] uf_s = Threw /\
  check_sat uf_pr icp_ev ibex_mid half fs_uf true false 2 [Run 1; Run 1; Run 1; Run 1; Run 0] uf_s = Undefined.
Proof. exact (dangling uf_pr icp_ev ibex_mid half fs_uf true 2 ltac:(lia) uf_s uf_step false uf_s eq_refl uf_open). Qed.
