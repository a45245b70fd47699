(** * Derivatives of the standard functions *)
From Coq Require Import ZArith Reals Lra Lia List Bool.
From Verif Require Import Sem StdInterp PowProofs Syntax SpecDiff.
Local Open Scope R_scope.
Notation dlim := derivable_pt_lim.

Lemma dlim_eq f x l l' : l = l' -> dlim f x l -> dlim f x l'. Proof. now intros ->. Qed.
Lemma dlim_plus F G x l m : dlim F x l -> dlim G x m -> dlim (fun z => F z + G z) x (l + m).
Proof. apply derivable_pt_lim_plus. Qed.
Lemma dlim_minus F G x l m : dlim F x l -> dlim G x m -> dlim (fun z => F z - G z) x (l - m).
Proof. apply derivable_pt_lim_minus. Qed.
Lemma dlim_mult F G x l m : dlim F x l -> dlim G x m -> dlim (fun z => F z * G z) x (l * G x + F x * m).
Proof. apply derivable_pt_lim_mult. Qed.
Lemma dlim_const c x : dlim (fun _ => c) x 0. Proof. apply derivable_pt_lim_const. Qed.
Lemma dlim_opp F x l : dlim F x l -> dlim (fun z => - F z) x (- l).
Proof. apply derivable_pt_lim_opp. Qed.
Lemma dlim_comp H F x l m : dlim F x l -> dlim H (F x) m -> dlim (fun z => H (F z)) x (m * l).
Proof. intros A B. exact (derivable_pt_lim_comp F H x l m A B). Qed.
Lemma dlim_div F G x l m : dlim F x l -> dlim G x m -> G x <> 0 -> dlim (fun z => F z / G z) x ((l * G x - F x * m) / (G x * G x)).
Proof.
  intros A B N. eapply dlim_eq; [|exact (derivable_pt_lim_div F G x l m A B N)]. unfold Rsqr. f_equal. ring.
Qed.

Lemma pos_near F x l : dlim F x l -> 0 < F x -> exists a b, a < x < b /\ forall z, a < z < b -> 0 < F z.
Proof.
  intros H P. assert (C : continuity_pt F x) by (apply derivable_continuous_pt; exists l; exact H).
  destruct (C (F x) P) as (d & Hd & Hn). exists (x - d), (x + d). split; [lra|]. intros z Hz.
  destruct (Req_dec x z) as [->|N]; auto.
  assert (X : Rabs (F z - F x) < F x).
  { apply Hn. split; [split; [exact I|auto]|]. cbn. unfold R_dist. apply Rabs_def1; lra. }
  apply Rabs_def2 in X. lra.
Qed.
Lemma neg_near F x l : dlim F x l -> F x < 0 -> exists a b, a < x < b /\ forall z, a < z < b -> F z < 0.
Proof.
  intros H P. destruct (pos_near (fun z => - F z) x (- l) (dlim_opp _ _ _ H)) as (a & b & A & B); [lra|].
  exists a, b. split; auto. intros z Hz. specialize (B z Hz). lra.
Qed.

(** ** Powers *)
Lemma Rpower_pred a b : 0 < a -> Rpower a (b - 1) * a = Rpower a b.
Proof. intros H. rewrite <- (Rpower_1 a) at 2 by auto. rewrite <- Rpower_plus. f_equal. ring. Qed.
Lemma dlim_pow_pos F G x l m : dlim F x l -> dlim G x m -> 0 < F x ->
  dlim (fun z => powR (F z) (G z)) x (powR (F x) (G x - 1) * (G x * l + ln (F x) * F x * m)).
Proof.
  intros A B P. destruct (pos_near F x l A P) as (a & b & Hx & Hz).
  apply (derivable_pt_lim_locally_ext (fun z => exp (G z * ln (F z))) _ x a b); auto.
  { intros z H. rewrite powR_pos by auto. reflexivity. }
  eapply dlim_eq; [|apply (dlim_comp exp (fun z => G z * ln (F z))); [apply (dlim_mult G (fun z => ln (F z))); [exact B|apply (dlim_comp ln F); [exact A|apply derivable_pt_lim_ln; auto]]|apply derivable_pt_lim_exp]].
  cbn beta. change (exp (G x * ln (F x))) with (Rpower (F x) (G x)). rewrite powR_pos by auto. rewrite <- (Rpower_pred (F x) (G x)) by auto. field. lra.
Qed.
Lemma dlim_powerRZ u z : u <> 0 \/ (1 <= z)%Z -> dlim (fun y => powerRZ y z) u (IZR z * powerRZ u (z - 1)).
Proof.
  intros H. destruct z as [|p|p].
  - eapply dlim_eq; [|exact (dlim_const 1 u)]. cbn. ring.
  - eapply dlim_eq; [|apply derivable_pt_lim_pow].
    assert (E : powerRZ u (Z.pos p - 1) = u ^ Init.Nat.pred (Pos.to_nat p)).
    { replace (Z.pos p - 1)%Z with (Z.of_nat (Init.Nat.pred (Pos.to_nat p))) by lia. symmetry. apply pow_powerRZ. }
    rewrite E. f_equal. rewrite INR_IZR_INZ. f_equal. lia.
  - assert (Nz : u <> 0) by (destruct H as [H|H]; [auto|lia]).
    assert (Np : u ^ Pos.to_nat p <> 0) by (apply pow_nonzero; auto).
    eapply dlim_eq; [|apply (derivable_pt_lim_ext (fun y => 1 / y ^ Pos.to_nat p)); [intros y; cbn; unfold Rdiv; ring|
      apply dlim_div; [apply dlim_const|apply derivable_pt_lim_pow|exact Np]]].
    replace (Z.neg p - 1)%Z with (Z.neg (p + 1)) by lia. cbn [powerRZ].
    replace (Pos.to_nat (p + 1)) with (S (Pos.to_nat p)) by lia.
    assert (E : Pos.to_nat p = S (Init.Nat.pred (Pos.to_nat p))) by lia.
    set (k := Init.Nat.pred (Pos.to_nat p)) in *. rewrite E in *. cbn [pow]. replace (IZR (Z.neg p)) with (- INR (S k)).
    + field. split; auto. apply pow_nonzero; auto.
    + rewrite INR_IZR_INZ, <- opp_IZR. f_equal. lia.
Qed.
Lemma dlim_pow_int F x l b : dlim F x l -> isint b -> F x <> 0 \/ 1 <= b ->
  dlim (fun z => powR (F z) b) x (b * powR (F x) (b - 1) * l).
Proof.
  intros A (z & ->) H. apply (derivable_pt_lim_ext (fun y => powerRZ (F y) z)); [intros y; now rewrite powR_Z|].
  eapply dlim_eq; [|apply (dlim_comp (fun y => powerRZ y z) F); [exact A|apply dlim_powerRZ]]; [|destruct H as [H|H]; [auto|right; now apply le_IZR]].
  rewrite <- minus_IZR. now rewrite powR_Z.
Qed.
Lemma powR_neg a b : a <> 0 -> (0 < a \/ isint b) -> powR a (- b) * powR a b = 1.
Proof.
  intros N [P|(z & ->)].
  - rewrite !powR_pos by auto. rewrite <- Rpower_plus. replace (- b + b) with 0 by ring. now apply Rpower_O.
  - rewrite <- opp_IZR, !powR_Z. rewrite <- powerRZ_add by auto. replace (- z + z)%Z with 0%Z by ring. reflexivity.
Qed.

(** ** Functions of one argument *)
Definition un_der (o : unop) (a : R) : R :=
  match o with
  | ULog => 1 / a
  | UAbs => 0
  | UExp => exp a
  | USqrt => 1 / (2 * sqrt a)
  | USin => cos a
  | UCos => - sin a
  | UTan => 1 / (cos a * cos a)
  | UAsin => 1 / sqrt (1 - a * a)
  | UAcos => -1 / sqrt (1 - a * a)
  | UAtan => 1 / (1 + a * a)
  | USinh => cosh a
  | UCosh => sinh a
  | UTanh => 1 / (cosh a * cosh a)
  end.
Lemma cosh_pos a : 0 < cosh a.
Proof. unfold cosh. pose proof (exp_pos a). pose proof (exp_pos (- a)). lra. Qed.
Lemma cosh_sinh a : cosh a * cosh a - sinh a * sinh a = 1.
Proof.
  unfold cosh, sinh. assert (E : exp a * exp (- a) = 1) by (rewrite <- exp_plus; replace (a + - a) with 0 by ring; apply exp_0).
  transitivity (exp a * exp (- a)); [field|exact E].
Qed.
Lemma un_dlim o a : un_smooth o a -> dlim (unR o) a (un_der o a).
Proof.
  destruct o; cbn [un_smooth unR un_der]; intros H; try contradiction.
  - eapply dlim_eq; [|now apply derivable_pt_lim_ln]. field. lra.
  - apply derivable_pt_lim_exp.
  - eapply dlim_eq; [|now apply derivable_pt_lim_sqrt]. unfold Rdiv. ring.
  - apply derivable_pt_lim_sin.
  - apply derivable_pt_lim_cos.
  - apply (derivable_pt_lim_ext (fun y => sin y / cos y)); [reflexivity|].
    eapply dlim_eq; [|apply dlim_div; [apply derivable_pt_lim_sin|apply derivable_pt_lim_cos|exact H]].
    f_equal. pose proof (sin2_cos2 a) as X. unfold Rsqr in X. lra.
  - pose proof (derive_pt_asin a H) as X. eapply dlim_eq; [exact X|]. exact (proj2_sig (derivable_pt_asin a H)).
  - pose proof (derive_pt_acos a H) as X. eapply dlim_eq; [exact X|]. exact (proj2_sig (derivable_pt_acos a H)).
  - eapply dlim_eq; [|apply derivable_pt_lim_atan]. cbn. unfold Rdiv. rewrite Rmult_1_r. ring.
  - apply derivable_pt_lim_sinh.
  - apply derivable_pt_lim_cosh.
  - pose proof (cosh_pos a) as P. apply (derivable_pt_lim_ext (fun y => sinh y / cosh y)); [reflexivity|].
    eapply dlim_eq; [|apply dlim_div; [apply derivable_pt_lim_sinh|apply derivable_pt_lim_cosh|lra]].
    f_equal. apply cosh_sinh.
Qed.

(** ** atan2 *)
Lemma atan2_pos y x : 0 < y -> atan2R y x = PI / 2 - atan (x / y).
Proof.
  intros H. unfold atan2R. destruct (dec_case (0 < x)) as [[Hx ->]|[Hx ->]].
  - replace (y / x) with (/ (x / y)) by (field; lra). apply atan_inv. apply Rdiv_lt_0_compat; auto.
  - destruct (dec_case (x < 0)) as [[Hx' ->]|[Hx' ->]].
    + rewrite dec_true by lra. replace (y / x) with (- / (- x / y)) by (field; lra). rewrite atan_opp, atan_inv by (apply Rdiv_lt_0_compat; lra).
      replace (- x / y) with (- (x / y)) by (field; lra). rewrite atan_opp. field.
    + rewrite dec_true by auto. replace (x / y) with 0 by (replace x with 0 by lra; field; lra). rewrite atan_0. ring.
Qed.
Lemma atan2_neg y x : y < 0 -> atan2R y x = - (PI / 2) - atan (x / y).
Proof.
  intros H. unfold atan2R. destruct (dec_case (0 < x)) as [[Hx ->]|[Hx ->]].
  - replace (y / x) with (- / (x / - y)) by (field; lra). rewrite atan_opp, atan_inv by (apply Rdiv_lt_0_compat; lra).
    replace (x / - y) with (- (x / y)) by (field; lra). rewrite atan_opp. ring.
  - destruct (dec_case (x < 0)) as [[Hx' ->]|[Hx' ->]].
    + rewrite dec_false by lra. replace (y / x) with (/ (x / y)) by (field; lra). rewrite atan_inv; [field|].
      replace (x / y) with (- x / - y) by (field; lra). apply Rdiv_lt_0_compat; lra.
    + rewrite dec_false by lra. rewrite dec_true by auto. replace (x / y) with 0 by (replace x with 0 by lra; field; lra). rewrite atan_0. ring.
Qed.
Lemma dlim_atan F G x l m : dlim F x l -> dlim G x m -> G x <> 0 ->
  dlim (fun z => atan (F z / G z)) x ((G x * l - F x * m) / (F x * F x + G x * G x)).
Proof.
  intros A B N. eapply dlim_eq; [|apply (dlim_comp atan (fun z => F z / G z)); [apply dlim_div; [exact A|exact B|exact N]|apply derivable_pt_lim_atan]].
  cbn [pow]. field. assert (0 < G x * G x) by (apply Rlt_0_sqr; auto). pose proof (Rle_0_sqr (F x)) as S. unfold Rsqr in S. first [lra|split; lra|split; [lra|auto]|split; [auto|lra]].
Qed.
Lemma dlim_atan2 F G x l m : dlim F x l -> dlim G x m -> 0 < G x \/ F x <> 0 ->
  dlim (fun z => atan2R (F z) (G z)) x ((G x * l - F x * m) / (F x * F x + G x * G x)).
Proof.
  intros A B H.
  assert (S : forall u, u <> 0 -> 0 < u * u) by (intros u Hu; now apply Rlt_0_sqr).
  assert (S0 : forall u, 0 <= u * u) by (intros u; apply Rle_0_sqr).
  destruct (Rlt_dec 0 (G x)) as [P|P].
  - destruct (pos_near G x m B P) as (a & b & Hx & Hz). apply (derivable_pt_lim_locally_ext (fun z => atan (F z / G z)) _ x a b); auto.
    + intros z Hz'. unfold atan2R. rewrite dec_true by auto. reflexivity.
    + apply dlim_atan; auto. lra.
  - assert (N : F x <> 0) by tauto. pose proof (S (F x) N). pose proof (S0 (G x)). destruct (Rlt_dec 0 (F x)) as [Q|Q].
    + destruct (pos_near F x l A Q) as (a & b & Hx & Hz). apply (derivable_pt_lim_locally_ext (fun z => PI / 2 - atan (G z / F z)) _ x a b); auto.
      * intros z Hz'. symmetry. apply atan2_pos. auto.
      * eapply dlim_eq; [|apply dlim_minus; [apply dlim_const|apply dlim_atan; [exact B|exact A|exact N]]]. field. lra.
    + assert (Q' : F x < 0) by lra. destruct (neg_near F x l A Q') as (a & b & Hx & Hz).
      apply (derivable_pt_lim_locally_ext (fun z => - (PI / 2) - atan (G z / F z)) _ x a b); auto.
      * intros z Hz'. symmetry. apply atan2_neg. auto.
      * eapply dlim_eq; [|apply dlim_minus; [apply dlim_const|apply dlim_atan; [exact B|exact A|exact N]]]. field. lra.
Qed.
