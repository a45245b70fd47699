(** Steps of the search on x in [0,4] real, n in [-3,8] integer. *)
From Coq Require Import ZArith Reals Lra Lia List Bool.
From Flocq Require Import Core.Core IEEE754.BinarySingleNaN.
From Verif Require Import ExprAlg Dbl DblProofs Syntax Sem Interval IntervalProofs MathConv MathConvProofs IEval Contr Icp ExamplesForm ExamplesBox ExamplesContr ExamplesIcp SpecBranch BranchProofs.
Import ListNotations.

Definition no_prune (s : cstat) : option cstat := Some s.
Definition one_step (precision : dbl) (fs : list formula) : option outcome := icp_step no_prune icp_ev (branch_largest ibex_mid) precision fs (cs_new exb None).
(** the integer dimension is wider, so it is split; with a coarse precision the box is accepted *)
Definition splits_at (o : option outcome) (d : nat) : bool := match o with Some (Split e _ _ _) => Nat.eqb d e | _ => false end.
Definition accepts (o : option outcome) : bool := match o with Some (Accept _) => true | _ => false end.
Definition und (f : formula) : bool := match icp_ev f exb with Some (UNSAT, _) | None => false | _ => true end.
Lemma steps : splits_at (one_step half fs_unsat) 1 = true /\ accepts (one_step (dZ 100) fs_unsat) = true /\ forallb und fs_unsat = true /\ b_empty exb = false.
Proof. vm_compute. auto. Qed.
Lemma fs_undecided : undecided icp_ev fs_unsat exb.
Proof.
  intros f Hf. pose proof (proj1 (forallb_forall _ _) (proj1 (proj2 (proj2 steps))) f Hf) as U. unfold und in U.
  destruct (icp_ev f exb) as [[t i]|]; [|discriminate U]. exists t, i. split; [reflexivity|]. destruct t; congruence.
Qed.
Lemma exb_numeric v : In v (bvars exb) -> vty v <> BOOLEAN.
Proof. simpl. intros [<-|[<-|[]]]; discriminate. Qed.
(** a constraint that is false on the whole box *)
Definition f_far : formula := FRel RGeq xn (EConst (dZ 50)).
Definition infeasible (o : option outcome) : bool := match o with Some (Infeasible _) => true | _ => false end.
Lemma step_far : infeasible (one_step half [f_le3; f_far]) = true.
Proof. vm_compute. reflexivity. Qed.

(** (-2)^(2^31): an integer power outside the range of int *)
#[local] Opaque dZ.
Lemma pow_big fpow : mk_pow fpow (EConst (dZ (-2))) (EConst (dZ 2147483648)) = (Throw, []).
Proof.
  apply pow_throws. assert (A : B2R (dZ (-2)) = (-2)%R) by (apply dZ_exact; cbn; lia).
  assert (B : B2R (dZ 2147483648) = IZR 2147483648) by (apply dZ_exact; cbn; lia).
  split; [apply (dZ_exact (-2)); cbn; lia|]. split; [rewrite A; lra|]. split; [apply (dZ_exact 2147483648); cbn; lia|]. intros (z & Hz & E). rewrite B in E. apply eq_IZR in E. lia.
Qed.
