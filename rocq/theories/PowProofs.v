(** * Facts about real powers *)
From Coq Require Import ZArith Reals Lra Lia List Bool ClassicalDescription.
From Verif Require Import Dbl Syntax Sem IEval StdInterp.
Local Open Scope R_scope.

Lemma dec_true (P : Prop) : P -> dec P = true.
Proof. unfold dec; destruct (excluded_middle_informative P); tauto. Qed.
Lemma dec_false (P : Prop) : ~ P -> dec P = false.
Proof. unfold dec; destruct (excluded_middle_informative P); tauto. Qed.
Lemma dec_case (P : Prop) : (P /\ dec P = true) \/ (~ P /\ dec P = false).
Proof. unfold dec; destruct (excluded_middle_informative P); tauto. Qed.

Lemma Int_part_IZR z : Int_part (IZR z) = z.
Proof.
  unfold Int_part. rewrite <- (tech_up (IZR z) (z + 1)).
  - ring.
  - rewrite plus_IZR. lra.
  - rewrite plus_IZR. lra.
Qed.
Lemma powR_Z x z : powR x (IZR z) = powerRZ x z.
Proof.
  unfold powR. rewrite dec_true by (exists z; reflexivity). now rewrite Int_part_IZR.
Qed.
Lemma powR_pos x y : 0 < x -> powR x y = Rpower x y.
Proof.
  intros H. unfold powR. destruct (dec_case (isint y)) as [[(z & ->) ->]|[_ ->]].
  - rewrite Int_part_IZR. now apply powerRZ_Rpower.
  - rewrite dec_false by lra. reflexivity.
Qed.
Lemma powR_0 y : 0 < y -> powR 0 y = 0.
Proof.
  intros H. unfold powR. destruct (dec_case (isint y)) as [[(z & ->) ->]|[_ ->]].
  - rewrite Int_part_IZR. apply lt_IZR in H. destruct z; try lia. simpl.
    apply pow_i. lia.
  - now rewrite dec_true.
Qed.
Lemma powR_x0 x : powR x 0 = 1.
Proof. change 0 with (IZR 0). now rewrite powR_Z. Qed.
Lemma powR_x1 x : powR x 1 = x.
Proof. change 1 with (IZR 1). rewrite powR_Z. simpl. ring. Qed.
Lemma powR_x2 x : powR x 2 = x * x.
Proof. change 2 with (IZR 2). rewrite powR_Z. simpl. ring. Qed.
Lemma pow_def_int x z : (0 <= z)%Z -> pow_def x (IZR z).
Proof.
  intros H. unfold pow_def. destruct (Rtotal_order x 0) as [L|[L|L]].
  - right; right; split; auto. now exists z.
  - right; left; split; auto. now apply IZR_le.
  - now left.
Qed.
Lemma pow_def_0 x : pow_def x 0. Proof. exact (pow_def_int x 0 ltac:(lia)). Qed.
Lemma pow_def_1 x : pow_def x 1. Proof. exact (pow_def_int x 1 ltac:(lia)). Qed.
Lemma pow_def_2 x : pow_def x 2. Proof. exact (pow_def_int x 2 ltac:(lia)). Qed.

Lemma powR_plus x a b : pow_def x a -> pow_def x b ->
  pow_def x (a + b) /\ powR x (a + b) = powR x a * powR x b.
Proof.
  intros Ha Hb. destruct (Rtotal_order x 0) as [L|[->|L]].
  - destruct Ha as [|[[]|[_ (za & ->)]]]; try lra. destruct Hb as [|[[]|[_ (zb & ->)]]]; try lra.
    rewrite <- plus_IZR. split.
    + right; right; split; auto. now exists (za + zb)%Z.
    + rewrite !powR_Z. apply powerRZ_add. lra.
  - destruct Ha as [|[[_ Ha]|[]]]; try lra. destruct Hb as [|[[_ Hb]|[]]]; try lra. split.
    + right; left. lra.
    + destruct (Req_dec a 0) as [->|Na]; [rewrite Rplus_0_l, powR_x0; lra|].
      rewrite (powR_0 a), (powR_0 (a + b)) by lra. lra.
  - split; [now left|]. rewrite !powR_pos by auto. apply Rpower_plus.
Qed.

Lemma powerRZ_powerRZ x a b : x <> 0 -> powerRZ (powerRZ x a) b = powerRZ x (a * b).
Proof.
  intros Hx.
  assert (Hy : powerRZ x a <> 0) by now apply powerRZ_NOR.
  revert b. apply Z.bi_induction.
  - intros ? ? ->; tauto.
  - now rewrite Z.mul_0_r.
  - intros b. rewrite Z.mul_succ_r. unfold Z.succ. rewrite !powerRZ_add by auto. rewrite powerRZ_1.
    split; intros E; [now rewrite E|].
    apply Rmult_eq_reg_r with (powerRZ x a); auto.
Qed.
Lemma powR_pow x a b : isint a -> isint b -> pow_def x a -> pow_def (powR x a) b ->
  pow_def x (a * b) /\ powR x (a * b) = powR (powR x a) b.
Proof.
  intros (za & ->) (zb & ->) Ha Hb. rewrite <- mult_IZR. rewrite !powR_Z in *.
  destruct (Rtotal_order x 0) as [L|[->|L]].
  - split; [right; right; split; auto; now exists (za * zb)%Z|].
    symmetry; apply powerRZ_powerRZ; lra.
  - destruct Ha as [|[[_ Ha]|[]]]; try lra. apply le_IZR in Ha.
    destruct (Z.eq_dec za 0) as [->|Nz].
    + simpl. split; [apply pow_def_int; lia|]. rewrite <- powR_Z, powR_pos by lra.
      unfold Rpower. rewrite ln_1, Rmult_0_r, exp_0. reflexivity.
    + assert (E : powerRZ 0 za = 0) by (rewrite <- powR_Z; apply powR_0, IZR_lt; lia).
      rewrite E in *. destruct Hb as [|[[_ Hb]|[]]]; try lra. apply le_IZR in Hb.
      split; [apply pow_def_int; lia|].
      destruct (Z.eq_dec zb 0) as [->|Nb]; [rewrite Z.mul_0_r; reflexivity|].
      rewrite <- !powR_Z, !powR_0 by (apply IZR_lt; lia). reflexivity.
  - split; [now left|]. symmetry; apply powerRZ_powerRZ; lra.
Qed.
Lemma sqrt_pow2 x : sqrt (powR x 2) = Rabs x.
Proof. rewrite powR_x2. apply sqrt_Rsqr_abs. Qed.
