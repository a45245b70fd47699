(** Terms with and without kinks *)
From Coq Require Import ZArith Reals Lra Lia List Bool.
From Flocq Require Import Core.Core IEEE754.BinarySingleNaN.
From Verif Require Import Dbl DblProofs Syntax Sem StdInterp MathConv ExprAlg Diff SpecDiff Refiner SpecSmooth SmoothProofs ExamplesForm ExamplesAlg ExamplesDiff.
Import ListNotations.
Local Open Scope R_scope.

Lemma smooth_inside M x : forall e rho, smooth M x e rho -> is_diffE e = true -> inside M e rho.
Proof.
  refine (expr_ind2 (fun e => forall rho, smooth M x e rho -> is_diffE e = true -> inside M e rho) (fun _ => True) _ _ _ _ _ _ _ _ _ _ _ _ _ _ _ _ _); auto.
  - intros c ts IH rho S0 D. cbn [smooth inside is_diffE] in *. induction IH as [|[a k] ts Ha Hts IH]; cbn [fold_right forallb fst] in *; [exact I|]. apply andb_true_iff in D. destruct D as [D1 D2], S0 as [S1 S2]. auto.
  - intros c ts IH rho S0 D. cbn [smooth inside is_diffE] in *. induction IH as [|[a b] ts [Ha Hb] Hts IH]; cbn [fold_right forallb fst snd] in *; [exact I|]. apply andb_true_iff in D. destruct D as [D1 D2], S0 as [(S1 & S2 & _ & S3) S4]. apply andb_true_iff in D1. destruct D1 as [D0 D1].
    split; [|auto]. split; [auto|]. split; [auto|]. destruct S3 as [S3|(S3 & S5)]; [left; exact S3|right]. split; [|exact S5]. destruct b; try discriminate S3. reflexivity.
  - intros o a IH rho S0 D. destruct o; try discriminate D; cbn [smooth inside is_diffE] in *; destruct S0; auto.
  - intros o a b IHa IHb rho S0 D. destruct o; try discriminate D; cbn [smooth inside is_diffE] in *; apply andb_true_iff in D; destruct D as [D1 D2]; destruct S0 as (S1 & S2 & S3); (split; [auto|]); (split; [auto|]); auto.
    destruct S3 as [S3|(S3 & S5)]; [left; exact S3|right]. split; [|exact S5]. destruct b; try discriminate S3. reflexivity.
  - intros f a b _ _ _ rho _ D. discriminate D.
  - intros n vs rho _ D. discriminate D.
Qed.
Lemma abs_kink : ~ exists l, derivable_pt_lim Rabs 0 l.
Proof.
  intros (l & L). destruct (L (1 / 2)) as (d & H); [lra|]. pose proof (cond_pos d) as P. set (h := d / 2). assert (Hh : 0 < h < d) by (unfold h; lra).
  pose proof (H h ltac:(lra) ltac:(rewrite Rabs_pos_eq; lra)) as A. pose proof (H (- h) ltac:(lra) ltac:(rewrite Rabs_Ropp, Rabs_pos_eq; lra)) as B.
  rewrite Rplus_0_l, Rabs_R0 in A, B. rewrite Rabs_Ropp, Rminus_0_r in B. rewrite Rminus_0_r in A. rewrite (Rabs_pos_eq h) in A, B by lra.
  replace (h / h) with 1 in A by (field; lra). replace (h / - h) with (-1) in B by (field; lra). apply Rabs_def2 in A. apply Rabs_def2 in B. lra.
Qed.
Lemma smooth_meets :
  is_diffE dexp = true /\ (forall uf rc, inside (std uf rc) dexp rho_d) /\ is_diffE (EUn UAbs ex) = false /\
  (forall uf rc rho, inside (std uf rc) (EUn UAbs ex) rho) /\
  (forall uf rc, ~ exists l, derivable_pt_lim (fun z => evalE (std uf rc) (EUn UAbs ex) (at_x (fun _ => 0%R) ExamplesForm.vx z)) 0 l).
Proof.
  split; [vm_compute; reflexivity|]. split; [intros uf rc; apply (smooth_inside _ vx); [apply diff_smooth|vm_compute; reflexivity]|]. split; [vm_compute; reflexivity|]. split; [intros uf rc rho; exact I|].
  intros uf rc (l & L). apply abs_kink. exists l. apply (derivable_pt_lim_ext (fun z => evalE (std uf rc) (EUn UAbs ex) (at_x (fun _ => 0) vx z))); [|exact L]. intros z. cbn [evalE ex i_un std unR]. unfold at_x. rewrite (proj2 (var_eqb_eq vx vx) eq_refl). reflexivity.
Qed.
Definition log0 : expr := EUn ULog (EConst dzero).
Lemma log0_throws : is_diffE log0 = true /\ forall fpow, exists t, diff fpow 20 vx log0 = (Throw, t).
Proof. split; [vm_compute; reflexivity|]. intros fpow. eexists. cbn. reflexivity. Qed.
