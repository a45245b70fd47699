(** Expressions built, substituted into and strengthened; cases that fail. *)
From Coq Require Import ZArith Reals Lra Lia List Bool ClassicalDescription.
From Flocq Require Import Core.Core IEEE754.BinarySingleNaN.
From Verif Require Import Dbl DblProofs Syntax Sem SemProofs FormulaCons FormulaConsProofs IEval StdInterp MathConv MathConvProofs
  Order ExprAlg SpecAlg PowProofs ExprAlgProofs AlgClosed CmpSound Subst SubstProofs DeltaStr DeltaStrProofs AlgTop ExamplesForm.
Import ListNotations.
Local Open Scope R_scope.
Local Notation R := Rdefinitions.R.

(** A sufficient test for [exactN], by exact integer arithmetic on multiples of 2^-1074. *)
Definition zof (x : dbl) : Z :=
  match x with B754_finite s m e _ => (cond_Zopp s (Zpos m) * 2 ^ (e + 1074))%Z | _ => 0%Z end.
Lemma zof_R x : B2R x = IZR (zof x) * bpow radix2 (-1074).
Proof.
  destruct x as [s|s| |s m e H]; cbn [B2R zof]; try (rewrite Rmult_0_l; reflexivity).
  assert (He : (-1074 <= e)%Z).
  { unfold SpecFloat.bounded, SpecFloat.canonical_mantissa in H. apply andb_true_iff in H. destruct H as [H _].
    apply Zeq_bool_eq in H. rewrite <- H. unfold SpecFloat.fexp, SpecFloat.emin. unfold prec64, emax64. lia. }
  unfold F2R. cbn [Fnum Fexp]. rewrite mult_IZR, (IZR_Zpower radix2) by lia. rewrite Rmult_assoc, <- bpow_plus. do 2 f_equal. lia.
Qed.
Definition stepb (s : step) : bool :=
  match s with
  | SAdd a b => is_finite (dadd a b) && Z.eqb (zof (dadd a b)) (zof a + zof b)
  | SMul a b => is_finite (dmul a b) && Z.eqb (zof (dmul a b) * 2 ^ 1074) (zof a * zof b)
  | SDiv a b => is_finite (ddiv a b) && negb (Z.eqb (zof b) 0) && Z.eqb (zof (ddiv a b) * zof b) (zof a * 2 ^ 1074)
  | SMinMax a b => is_finite a && is_finite b
  | SKey k k' => expr_eqb k k'
  | SPowPow e => is_finite e && is_integer e
  | SCmp c => is_finite c
  | _ => false
  end.

Section Check.
  Variables (uf : nat -> list R -> R) (rc : dbl -> dbl -> R).
  Notation M := (std uf rc).
  Lemma stepb_exact s : stepb s = true -> exact M s.
  Proof.
    pose proof (bpow_gt_0 radix2 (-1074)) as Hp.
    assert (H2 : IZR (2 ^ 1074) * bpow radix2 (-1074) = 1) by (rewrite (IZR_Zpower radix2) by lia; rewrite <- bpow_plus; reflexivity).
    destruct s; cbn [stepb exact]; try discriminate; intros H; rewrite ?andb_true_iff in H.
    - destruct H as [F H]. split; auto. apply Z.eqb_eq in H. rewrite !zof_R, H, plus_IZR. ring.
    - destruct H as [F H]. split; auto. apply Z.eqb_eq in H. apply (f_equal IZR) in H. rewrite !mult_IZR in H.
      rewrite !zof_R. set (p := bpow radix2 (-1074)) in *. set (q := IZR (2 ^ 1074)) in *.
      transitivity (IZR (zof (dmul a b)) * (q * p) * p); [rewrite H2; ring|].
      transitivity (IZR (zof (dmul a b)) * q * p * p); [ring|rewrite H; ring].
    - destruct H as [[F N] H]. split; auto. apply Z.eqb_eq in H. apply negb_true_iff, Z.eqb_neq in N. apply (f_equal IZR) in H. rewrite !mult_IZR in H.
      rewrite !zof_R. set (p := bpow radix2 (-1074)) in *. set (q := IZR (2 ^ 1074)) in *.
      assert (Nb : IZR (zof b) <> 0) by (intros X; apply N; now apply eq_IZR).
      apply (Rmult_eq_reg_r (IZR (zof b))); auto. transitivity (IZR (zof (ddiv a b)) * IZR (zof b) * p); [ring|]. rewrite H.
      transitivity (IZR (zof a) * (q * p)); [ring|]. rewrite H2. field. split; auto. exact (Rgt_not_eq _ _ Hp).
    - exact H.
    - apply expr_eqb_eq in H. subst. reflexivity.
    - destruct H as [_ H]. now apply is_integer_int.
    - exact H.
  Qed.
  Lemma stepsb_exact t : forallb stepb t = true -> Forall (exact M) t.
  Proof. intros H. apply Forall_forall. intros s Hs. rewrite forallb_forall in H. apply stepb_exact. auto. Qed.
  Lemma stepsb_exactN t : forallb stepb t = true -> Forall (exactN M) t.
  Proof. intros H. generalize (stepsb_exact t H). apply Forall_impl. intros []; cbn; auto. Qed.
End Check.

(** The computation ends with [e] and every recorded assumption passes the test. *)
Definition gives (c : comp expr) (e : expr) : bool := match c with (Val r, t) => expr_eqb r e && forallb stepb t | _ => false end.
Definition givesF (c : comp formula) (f : formula) : bool := match c with (Val r, t) => formula_eqb r f && forallb stepb t | _ => false end.
(** The computation ends with [e]. *)
Definition ends (c : comp expr) (e : expr) : bool := match c with (Val r, t) => expr_eqb r e | _ => false end.
Definition endsF (c : comp formula) (f : formula) : bool := match c with (Val r, t) => formula_eqb r f | _ => false end.
Lemma gives_ok uf rc c e : gives c e = true -> exists t, c = (Val e, t) /\ Forall (exact (std uf rc)) t /\ Forall (exactN (std uf rc)) t.
Proof.
  destruct c as [[r| | |] t]; cbn [gives]; try discriminate. intros H. apply andb_true_iff in H. destruct H as [H1 H2].
  apply expr_eqb_eq in H1. subst r. exists t. split; [reflexivity|]. split; [now apply stepsb_exact|now apply stepsb_exactN].
Qed.
Lemma givesF_ok uf rc c e : givesF c e = true -> exists t, c = (Val e, t) /\ Forall (exact (std uf rc)) t /\ Forall (exactN (std uf rc)) t.
Proof.
  destruct c as [[r| | |] t]; cbn [givesF]; try discriminate. intros H. apply andb_true_iff in H. destruct H as [H1 H2].
  apply formula_eqb_eq in H1. subst r. exists t. split; [reflexivity|]. split; [now apply stepsb_exact|now apply stepsb_exactN].
Qed.
Lemma ends_ok c e : ends c e = true -> exists t, c = (Val e, t).
Proof. destruct c as [[r| | |] t]; cbn [ends]; try discriminate. intros H. apply expr_eqb_eq in H. subst r. now exists t. Qed.
Lemma endsF_ok c e : endsF c e = true -> exists t, c = (Val e, t).
Proof. destruct c as [[r| | |] t]; cbn [endsF]; try discriminate. intros H. apply formula_eqb_eq in H. subst r. now exists t. Qed.

Definition ex := EVar vx.
Definition ey := EVar vy.
Definition kk (z : Z) := EConst (dZ z).
Definition half : dbl := mkd 1 (-1).
Definition quarter : dbl := mkd 1 (-2).
(** 3 + x + 2 y and 1 - x + y: the sum is 4 + 3 y *)
Definition sum1 := EAdd (dZ 3) [(ex, dZ 1); (ey, dZ 2)].
Definition sum2 := EAdd (dZ 1) [(ex, dZ (-1)); (ey, dZ 1)].
Example sum_runs : forall fpow, gives (mk_add fpow 5 sum1 sum2) (EAdd (dZ 4) [(ey, dZ 3)]) = true.
Proof. intros fpow. vm_compute. reflexivity. Qed.
Example sub_runs : forall fpow, gives (mk_sub fpow 5 sum1 sum2) (EAdd (dZ 2) [(ex, dZ 2); (ey, dZ 1)]) = true.
Proof. intros fpow. vm_compute. reflexivity. Qed.
Example neg_runs : forall fpow, gives (mk_neg fpow 5 sum1) (EAdd (dZ (-3)) [(ex, dZ (-1)); (ey, dZ (-2))]) = true.
Proof. intros fpow. vm_compute. reflexivity. Qed.
(** 2 x y^2 * 3 x y = 6 x^2 y^3 *)
Definition prod1 := EMul (dZ 2) [(ex, kk 1); (ey, kk 2)].
Definition prod2 := EMul (dZ 3) [(ex, kk 1); (ey, kk 1)].
Example mul_runs : forall fpow, gives (mk_mul fpow 5 prod1 prod2) (EMul (dZ 6) [(ex, kk 2); (ey, kk 3)]) = true.
Proof. intros fpow. vm_compute. reflexivity. Qed.
(** (x^2)^3 = x^6; (2 x y^2) / 2 stays; sqrt(x^2) = |x| *)
Example pow_runs : forall fpow, gives (mk_bin fpow BPow (EBin BPow ex (kk 2)) (kk 3)) (EBin BPow ex (kk 6)) = true.
Proof. intros fpow. vm_compute. reflexivity. Qed.
Example sqrt_runs : gives (mk_un USqrt (EBin BPow ex (kk 2))) (EUn UAbs ex) = true.
Proof. vm_compute. reflexivity. Qed.
(** 3 + x + 2 y < 1 + x + 2 y is false *)
Example rel_runs : forall fpow, givesF (mk_relm fpow 5 RLt sum1 (EAdd (dZ 1) [(ex, dZ 1); (ey, dZ 2)])) FFalse = true.
Proof. intros fpow. vm_compute. reflexivity. Qed.
Definition tyx (i : nat) : vtype := CONTINUOUS.
Example plain_sums : plainE tyx sum1 /\ plainE tyx sum2 /\ plainE tyx prod1 /\ plainE tyx prod2.
Proof. vm_compute. tauto. Qed.

(** ** Failing cases *)
Lemma zof_val x z : Z.eqb (zof x) (z * 2 ^ 1074) = true -> B2R x = IZR z.
Proof.
  intros H. apply Z.eqb_eq in H. rewrite zof_R, H, mult_IZR, (IZR_Zpower radix2) by lia. rewrite Rmult_assoc, <- bpow_plus. cbn. ring.
Qed.
Definition two53 : Z := 9007199254740992.
(** 2^53 + 1 becomes 2^53 *)
Lemma round_sum : forall fpow rho, exists r t,
  mk_add fpow 1 (kk two53) (kk 1) = (Val r, t) /\ evalE Mstd r rho <> evalE Mstd (kk two53) rho + evalE Mstd (kk 1) rho.
Proof.
  intros fpow rho. destruct (ends_ok (mk_add fpow 1 (kk two53) (kk 1)) (kk two53)) as [t E]; [vm_compute; reflexivity|].
  exists (kk two53), t. split; [exact E|]. change (B2R (dZ two53) <> B2R (dZ two53) + B2R (dZ 1)).
  rewrite (zof_val (dZ 1) 1) by (vm_compute; reflexivity). lra.
Qed.
(** (x^2)^(1/2) * y becomes x * y *)
Definition pp := EBin BPow (EBin BPow ex (kk 2)) (EConst half).
Definition rho_m (v : var) : R := if var_eqb v vx then -1 else 1.
Lemma pow_merge : forall fpow, exists r t,
  mk_mul fpow 5 pp ey = (Val r, t) /\ defE Mstd stdD pp rho_m /\ defE Mstd stdD ey rho_m /\
  evalE Mstd r rho_m <> evalE Mstd pp rho_m * evalE Mstd ey rho_m.
Proof.
  intros fpow. destruct (ends_ok (mk_mul fpow 5 pp ey) (EMul (dZ 1) [(ex, kk 1); (ey, kk 1)])) as [t E]; [vm_compute; reflexivity|].
  exists (EMul (dZ 1) [(ex, kk 1); (ey, kk 1)]), t. split; [exact E|].
  assert (B1 : B2R (dZ 1) = 1) by (apply zof_val; vm_compute; reflexivity).
  assert (B2 : B2R (dZ 2) = 2) by (apply zof_val; vm_compute; reflexivity).
  assert (P2 : powR (-1) 2 = 1) by (rewrite powR_x2; ring).
  assert (P1 : forall x, powR x 1 = x) by apply powR_x1.
  assert (Ph : 0 < powR 1 (B2R half)) by (rewrite powR_pos by lra; apply exp_pos).
  split; [|split].
  - split; [split; [exact I|split; [exact I|]]|split; [exact I|]].
    + right; right. cbn. split; [unfold rho_m; cbn; lra|]. change (isint (B2R (dZ 2))). rewrite B2. now exists 2%Z.
    + left. change (0 < powR (-1) (B2R (dZ 2))). rewrite B2, P2. lra.
  - exact I.
  - change (powR (-1) (B2R (dZ 1)) * (powR 1 (B2R (dZ 1)) * B2R (dZ 1)) <> powR (powR (-1) (B2R (dZ 2))) (B2R half) * 1).
    rewrite B1, B2, P2, !P1. lra.
Qed.
(** pow(pow(x, y), 2): the inner exponent, not a constant, is read as one *)
Lemma pow_confused : forall fpow, mk_bin fpow BPow (EBin BPow ex ey) (kk 2) = (Ub, []).
Proof. intros fpow. cbn [mk_bin mk_pow kk ex ey]. assert (A : deq (dZ 2) dzero = false) by (vm_compute; reflexivity).
  assert (B : deq (dZ 2) done = false) by (vm_compute; reflexivity). rewrite A, B. reflexivity. Qed.
(** Two decimal literals with the same representative are taken for the same term: writing l for
    the double below 1 and u for the one above, the literal in [l, 1] plus the literal in [1, u] is twice
    the first. *)
Definition lit1 := EReal (Bpred (dZ 1)) (dZ 1) false.
Definition lit2 := EReal (dZ 1) (Bsucc (dZ 1)) true.
Definition mid_rc (l u : dbl) : R := (B2R l + B2R u) / 2.
Lemma literals_merged : forall fpow uf rho, exists r t,
  mk_add fpow 5 lit1 lit2 = (Val r, t) /\ Forall (exactN (std uf mid_rc)) t /\
  evalE (std uf mid_rc) r rho <> evalE (std uf mid_rc) lit1 rho + evalE (std uf mid_rc) lit2 rho.
Proof.
  intros fpow uf rho.
  assert (X : match mk_add fpow 5 lit1 lit2 with (Val r, t) => expr_eqb r (EMul (dZ 2) [(lit1, kk 1)]) &&
     forallb (fun s => match s with SKey _ _ => true | _ => stepb s end) t | _ => false end = true) by (vm_compute; reflexivity).
  destruct (mk_add fpow 5 lit1 lit2) as [[r| | |] t]; try discriminate. apply andb_true_iff in X. destruct X as [X1 X2].
  apply expr_eqb_eq in X1. subst r. exists (EMul (dZ 2) [(lit1, kk 1)]), t. split; [reflexivity|]. split.
  - apply Forall_forall. intros s Hs. rewrite forallb_forall in X2. specialize (X2 s Hs). destruct s; try exact I; apply (stepb_exact uf mid_rc) in X2; exact X2.
  - change (powR (mid_rc (Bpred (dZ 1)) (dZ 1)) (B2R (dZ 1)) * B2R (dZ 2) <> mid_rc (Bpred (dZ 1)) (dZ 1) + mid_rc (dZ 1) (Bsucc (dZ 1))).
    assert (B1 : B2R (dZ 1) = 1) by (apply zof_val; vm_compute; reflexivity).
    assert (B2 : B2R (dZ 2) = 2) by (apply zof_val; vm_compute; reflexivity).
    rewrite B2, B1, powR_x1. unfold mid_rc. rewrite B1.
    assert (L : B2R (Bpred (dZ 1)) < 1 /\ 1 < B2R (Bsucc (dZ 1))).
    { cut (B2R (Bpred (dZ 1)) < B2R (dZ 1) /\ B2R (dZ 1) < B2R (Bsucc (dZ 1))); [now rewrite B1|].
      rewrite (zof_R (Bpred (dZ 1))), (zof_R (Bsucc (dZ 1))), !(zof_R (dZ 1)). pose proof (bpow_gt_0 radix2 (-1074)).
      split; apply Rmult_lt_compat_r; auto; apply IZR_lt; vm_compute; reflexivity. }
    lra.
Qed.

(** Substituting y for x under a quantifier over y: forall y. x >= y becomes forall y. y >= y *)
Definition capt : formula := FForall [vy] (FRel RGeq ex ey).
Definition rho0 (v : var) : R := 0.
Lemma capture : forall fpow, exists r t,
  SubstituteF fpow 5 [(vx, ey)] [] capt = (Val r, t) /\ Forall (exact Mstd) t /\
  holds Mstd r rho0 /\ ~ holds Mstd capt (updated Mstd [(vx, ey)] [] rho0).
Proof.
  intros fpow. destruct (givesF_ok (fun _ _ => 0) (fun lb _ => B2R lb) (SubstituteF fpow 5 [(vx, ey)] [] capt) (FForall [] FTrue)) as [t [E [X _]]]; [vm_compute; reflexivity|].
  exists (FForall [] FTrue), t. split; [exact E|]. split; [exact X|]. split.
  - intros rho' _ _. exact I.
  - intros H. specialize (H (fun v => if var_eqb v vy then 1 else 0)).
    assert (Y : 0 >= 1); [|lra].
    apply H.
    + intros v Hv. cbn beta. destruct (var_eqb v vy) eqn:Ev; [apply var_eqb_eq in Ev; subst; exfalso; apply Hv; now left|].
      unfold updated, imgE, imgF, image. cbn [find fst]. destruct (vty v); destruct (var_eqb v vx); try reflexivity.
    + intros v [<-|[]]. exact I.
Qed.
(** Substituting z for x in f(x, y) gives f(z): the arguments that are not substituted disappear *)
Definition ufxy : expr := EUf 0 [vx; vy].
Lemma uf_dropped : forall fpow, exists r t,
  SubstituteE fpow 5 [(vx, EVar vz)] [] ufxy = (Val r, t) /\ t = [] /\
  evalE (std (fun _ l => INR (length l)) (fun _ _ => 0)) r rho0 <>
  evalE (std (fun _ l => INR (length l)) (fun _ _ => 0)) ufxy (updated (std (fun _ l => INR (length l)) (fun _ _ => 0)) [(vx, EVar vz)] [] rho0).
Proof.
  intros fpow. exists (EUf 0 [vz]), []. split; [reflexivity|]. split; [reflexivity|]. cbn. lra.
Qed.
(** 2 x + y with x := 1 + y: y + 2 (1 + y) *)
Definition sub_e : expr := EAdd dzero [(ex, dZ 2); (ey, dZ 1)].
Definition sub_s : list (var * expr) := [(vx, EAdd (dZ 1) [(ey, dZ 1)])].
Example subst_runs : forall fpow, gives (SubstituteE fpow 8 sub_s [] sub_e) (EAdd dzero [(ey, dZ 1); (EAdd (dZ 1) [(ey, dZ 1)], dZ 2)]) = true.
Proof. intros fpow. vm_compute. reflexivity. Qed.
Definition sub_f : formula := FForall [vz] (FOr [FRel RGt ex (EVar vz); FVar vb; FNot (FRel RLeq sub_e (kk 4))]).
Definition sub_t : list (var * formula) := [(vb, FRel RLt ey (kk 7))].
Example substF_runs : forall fpow, givesF (SubstituteF fpow 8 sub_s sub_t sub_f)
  (FForall [vz] (FOr [FRel RGt (EAdd (dZ 1) [(ey, dZ 1)]) (EVar vz); FRel RLt ey (kk 7); FNot (FRel RLeq (EAdd dzero [(ey, dZ 1); (EAdd (dZ 1) [(ey, dZ 1)], dZ 2)]) (kk 4))])) = true.
Proof. intros fpow. vm_compute. reflexivity. Qed.
Lemma sub_ok : sokE sub_s [] [] sub_e /\ sokF sub_s sub_t [] sub_f /\
  (forall rho v, In v (fvF sub_f) -> idef Mstd stdD sub_s sub_t rho v) /\ (forall rho, defF Mstd stdD sub_f rho).
Proof.
  assert (P : forall v, vty v <> BOOLEAN -> forall w, In w [vz] -> ~ In w (ivars sub_s sub_t v)).
  { intros v Hv w [<-|[]]. unfold ivars, imgE, imgF, image, sub_s, sub_t. cbn [find fst]. destruct (vty v) eqn:E; try congruence;
      destruct (var_eqb v vx); cbn; intuition discriminate. }
  split; [|split; [|split]].
  - cbn. repeat split; try discriminate; auto.
  - cbn. repeat split; try discriminate; auto; try (intros _ w [<-|[]]; cbn; intuition discriminate).
  - intros rho v _. unfold idef, imgE, imgF, image, sub_s, sub_t. cbn [find fst]. destruct (vty v);
      [destruct (var_eqb v vx)|destruct (var_eqb v vx)|destruct (var_eqb v vx)|destruct (var_eqb v vb)]; cbn; auto.
  - intros rho. cbn. auto 10.
Qed.

(** not (x + y <= 2) or x != y, strengthened and weakened by 1/4 *)
Definition str_f : formula := FOr [FNot (FRel RLeq (EAdd dzero [(ex, dZ 1); (ey, dZ 1)]) (kk 2)); FRel RNeq ex ey].
Example str_runs : forall fpow,
  givesF (DeltaStrengthen fpow 8 8 str_f quarter)
    (FOr [FRel RGt (EAdd (dopp quarter) [(ex, dZ 1)]) ey; FRel RLt ex (EAdd (dopp quarter) [(ey, dZ 1)]);
          FNot (FRel RLeq (EAdd (dopp quarter) [(ex, dZ 1); (ey, dZ 1)]) (kk 2))]) = true /\
  givesF (DeltaWeaken fpow 8 8 (FNot (FRel REq ex ey)) quarter) (FNot (FRel REq ex ey)) = true /\
  givesF (DeltaWeaken fpow 8 8 (FRel REq ex ey) quarter)
    (FAnd [FRel RGeq (EAdd quarter [(ex, dZ 1)]) ey; FRel RLeq ex (EAdd quarter [(ey, dZ 1)])]) = true.
Proof. intros fpow. vm_compute. auto. Qed.
Lemma str_hyp : is_finite quarter = true /\ 0 <= B2R quarter /\ hasIteF str_f = false /\ (forall rho, defF Mstd stdD str_f rho).
Proof.
  split; [vm_compute; reflexivity|]. split; [rewrite zof_R; apply Rmult_le_pos; [apply IZR_le; vm_compute; discriminate|apply bpow_ge_0]|].
  split; [reflexivity|]. intros rho. cbn. auto 10.
Qed.
(** ite(x > 0, 1, 2) > 3/2 at x = 1/8: false, but its strengthening by 1/4 holds *)
Definition str_ite : formula := FRel RGt (EIte (FRel RGt ex (kk 0)) (kk 1) (kk 2)) (EConst (mkd 3 (-1))).
Definition rho_e (v : var) : R := / 8.
Lemma str_ite_wrong : forall fpow, exists g t,
  DeltaStrengthen fpow 8 8 str_ite quarter = (Val g, t) /\ Forall (exact Mstd) t /\ holds Mstd g rho_e /\ ~ holds Mstd str_ite rho_e.
Proof.
  intros fpow.
  set (g := FRel RGt (EIte (FRel RGt ex (EConst quarter)) (kk 1) (kk 2)) (EConst (mkd 7 (-2)))).
  destruct (givesF_ok (fun _ _ => 0) (fun lb _ => B2R lb) (DeltaStrengthen fpow 8 8 str_ite quarter) g) as [t [E [X _]]]; [vm_compute; reflexivity|].
  exists g, t. split; [exact E|]. split; [exact X|].
  assert (B0 : B2R (dZ 0) = 0) by (apply zof_val; vm_compute; reflexivity).
  assert (B1 : B2R (dZ 1) = 1) by (apply zof_val; vm_compute; reflexivity).
  assert (B2 : B2R (dZ 2) = 2) by (apply zof_val; vm_compute; reflexivity).
  assert (D : forall x z, Z.eqb (zof x * 4) (z * 2 ^ 1074) = true -> B2R x = IZR z / 4).
  { intros x z H. apply Z.eqb_eq in H. apply (f_equal IZR) in H. rewrite !mult_IZR, (IZR_Zpower radix2) in H by lia.
    rewrite zof_R. apply (Rmult_eq_reg_r 4); [|lra]. replace (IZR z / 4 * 4) with (IZR z) by field.
    transitivity (IZR (zof x) * 4 * bpow radix2 (-1074)); [ring|]. rewrite H, Rmult_assoc, <- bpow_plus. cbn. ring. }
  assert (Q : B2R quarter = 1 / 4) by (apply D; vm_compute; reflexivity).
  assert (Q3 : B2R (mkd 3 (-1)) = 6 / 4) by (apply D; vm_compute; reflexivity).
  assert (Q7 : B2R (mkd 7 (-2)) = 7 / 4) by (apply D; vm_compute; reflexivity).
  assert (Ei : forall f a b r, evalE Mstd (EIte f a b) r = if excluded_middle_informative (holds Mstd f r) then evalE Mstd a r else evalE Mstd b r) by reflexivity.
  split.
  - change (evalE Mstd (EIte (FRel RGt ex (EConst quarter)) (kk 1) (kk 2)) rho_e > B2R (mkd 7 (-2))). rewrite Ei.
    destruct (excluded_middle_informative _) as [H|H].
    + change (/ 8 > B2R quarter) in H. lra.
    + change (B2R (dZ 2) > B2R (mkd 7 (-2))). lra.
  - change (~ evalE Mstd (EIte (FRel RGt ex (kk 0)) (kk 1) (kk 2)) rho_e > B2R (mkd 3 (-1))). rewrite Ei.
    destruct (excluded_middle_informative _) as [H|H].
    + change (~ B2R (dZ 1) > B2R (mkd 3 (-1))). lra.
    + exfalso. apply H. change (/ 8 > B2R (dZ 0)). lra.
Qed.
Lemma free_vars_example : fvE sub_e = [vx; vy] /\ ~ In vz (fvF sub_f) /\ In vb (fvF sub_f).
Proof. vm_compute. repeat split; auto. intuition discriminate. Qed.
