(** Concrete bounds; witnesses for the refutations of exact bound filtering. *)
From Coq Require Import ZArith Reals Lra Lia List Bool.
From Flocq Require Import Core.Core IEEE754.BinarySingleNaN.
From Verif Require Import Dbl DblProofs Syntax Sem Interval IntervalProofs MathConv MathConvProofs IEval StdInterp ExamplesForm ExamplesBox Filter FilterProofs.
Import ListNotations.
Local Open Scope R_scope.

Definition f_x_le3 : formula := FNot (FRel RGt (EVar vx) (EConst (dZ 3))).
Definition f_n_gt5 : formula := FRel RLt (EConst (dZ 5)) (EVar vi).
Example filt_x_le3 : match filter_assertion f_x_le3 exb with
  | Some (FilteredWithChange, b') => i_eqb (b_get b' 0) (IV dzero (dZ 3)) && i_eqb (b_get b' 1) (b_get exb 1) | _ => false end = true.
Proof. vm_compute. reflexivity. Qed.
(** a strict bound on an integer variable narrows the box but stays a constraint *)
Example filt_n_gt5 : match filter_assertion f_n_gt5 exb with
  | Some (NotFiltered, b') => i_eqb (b_get b' 1) (IV (dZ 5) (dZ 8)) | _ => false end = true.
Proof. vm_compute. reflexivity. Qed.
Lemma f_x_le3_exact : exact_lit f_x_le3 true.
Proof. exists RGt, vx, (dZ 3). split; [reflexivity|]. discriminate. Qed.
Lemma f_x_le3_hyps : (forall v, In v (fvF f_x_le3) -> In v (bvars exb)) /\ finF f_x_le3.
Proof. split; [intros v [<-|[]]; left; reflexivity|]. split; [exact I|vm_compute; reflexivity]. Qed.

(** x in [-1,4] *)
Definition exn : box := mkBox [vx] [IV (dZ (-1)) (dZ 4)].
Lemma exn_ok : box_ok exn.
Proof.
  split; [|split; [reflexivity|]].
  - constructor; [|constructor]. intros [].
  - repeat (constructor; [vm_compute; auto|]). constructor.
Qed.
Lemma exn_in rho : -1 <= rho vx <= 4 -> in_box rho exn.
Proof.
  intros H. split; [reflexivity|]. intros i v. destruct i as [|i]; [|destruct i; discriminate]. intros E. injection E as <-. cbn [b_get bvals exn nth imem].
  destruct (dZ_exact (-1) ltac:(lia)) as [F1 B1]. destruct (dZ_exact 4 ltac:(lia)) as [F2 B2]. rewrite (finite_d2e _ F1), (finite_d2e _ F2), B1, B2. cbn [ext_le]. lra.
Qed.
(** x > 1 *)
Definition f_gt1 : formula := FRel RGt (EVar vx) (EConst (dZ 1)).
Lemma gt1_loses M : exists r b' rho, filter_assertion f_gt1 exn = Some (r, b') /\ in_box rho exn /\ holds M f_gt1 rho /\ ~ in_box rho b'.
Proof.
  destruct (dZ_exact 1 ltac:(lia)) as [F1 B1]. destruct (dZ_exact 4 ltac:(lia)) as [F4 B4].
  destruct (next_up (dZ 1) F1) as (F & _ & _ & U). pose (n := dnextafter (dZ 1) dmax). fold n in F, U.
  assert (G : B2R (dZ 1) < B2R n). { apply (next_up_gt (dZ 1) (B2R n) F1); [vm_compute; reflexivity|apply Rle_refl]. }
  assert (L : B2R n <= 4).
  { pose proof (Bsucc_least (dZ 1) (dZ 4) F1 (fin_nan _ F4)) as L. rewrite (finite_d2e _ F1), (finite_d2e (dZ 4) F4), B1, B4 in L. rewrite (finite_d2e _ F) in U.
    refine (ext_le_trans (Fin (B2R n)) _ (Fin 4) U (L _)). apply ext_lt_fin. lra. }
  rewrite B1 in G. pose (x := (1 + B2R n) / 2).
  exists (fst (upd_lb vx n exn)), (snd (upd_lb vx n exn)), (fun _ => x). split; [|split; [|split]].
  - change (filter_assertion f_gt1 exn) with (Some (upd_lb vx n exn)). rewrite <- surjective_pairing. reflexivity.
  - apply exn_in. unfold x. lra.
  - cbn [f_gt1 holds relR evalE]. rewrite B1. unfold x. lra.
  - intros C. apply (narrowed_in (fun y => B2R n <= y) 0 vx exn) in C; [|exact exn_ok|reflexivity|apply upd_lb_spec; [exact exn_ok|reflexivity|exact F]].
    destruct C as [_ C]. change (B2R n <= x) in C. unfold x in C. lra.
Qed.
(** x < 0: the new upper bound is the smallest positive double *)
Definition f_lt0 : formula := FRel RLt (EVar vx) (EConst dzero).
Lemma lt0_keeps M : exists r b' rho, filter_assertion f_lt0 exn = Some (r, b') /\ r <> NotFiltered /\ in_box rho b' /\ ~ holds M f_lt0 rho.
Proof.
  pose (n := dnextafter dzero dmin_normal). destruct (next_dmin dzero eq_refl) as (F & A & _). fold n in F, A. specialize (A eq_refl). rewrite (finite_d2e _ F) in A. change (0 <= B2R n) in A.
  exists (fst (upd_ub vx n exn)), (snd (upd_ub vx n exn)), (fun _ => 0). split; [|split; [|split]].
  - change (filter_assertion f_lt0 exn) with (Some (upd_ub vx n exn)). rewrite <- surjective_pairing. reflexivity.
  - unfold upd_ub. destruct (dge n (iub (b_getv exn vx))); [discriminate|]. destruct (dge n (ilb (b_getv exn vx))); discriminate.
  - apply (narrowed_in (fun y => y <= B2R n) 0 vx exn); [exact exn_ok|reflexivity|apply upd_ub_spec; [exact exn_ok|reflexivity|exact F]|].
    split; [apply exn_in; lra|exact A].
  - cbn [f_lt0 holds relR evalE]. cbn. lra.
Qed.
