(** Lemmas about binary64 comparison, [nextafter], rounding to integers. *)
From Coq Require Import ZArith Reals Lra Lia Bool.
From Flocq Require Import Core.Core IEEE754.BinarySingleNaN.
From Verif Require Import Dbl.
Local Open Scope R_scope.

Lemma ext_le_refl a : ext_le a a.
Proof. destruct a; simpl; auto; lra. Qed.
Lemma ext_le_trans a b c : ext_le a b -> ext_le b c -> ext_le a c.
Proof. destruct a, b, c; simpl; try tauto; lra. Qed.
Lemma ext_le_total a b : ext_le a b \/ ext_le b a.
Proof. destruct a, b; simpl; auto. lra. Qed.
Lemma ext_lt_le a b : ext_lt a b -> ext_le a b.
Proof. unfold ext_lt; intros H; destruct (ext_le_total a b); tauto. Qed.
Lemma ext_lt_fin x y : ext_lt (Fin x) (Fin y) <-> x < y.
Proof. unfold ext_lt; simpl; lra. Qed.
Lemma ext_le_lt_trans a b c : ext_le a b -> ext_lt b c -> ext_lt a c.
Proof. unfold ext_lt; intros H1 H2 H3; apply H2; eapply ext_le_trans; eauto. Qed.
Lemma ext_lt_le_trans a b c : ext_lt a b -> ext_le b c -> ext_lt a c.
Proof. unfold ext_lt; intros H1 H2 H3; apply H1; eapply ext_le_trans; eauto. Qed.
Lemma ext_le_antisym a b : ext_le a b -> ext_le b a -> a = b.
Proof. destruct a, b; simpl; try tauto; intros; f_equal; lra. Qed.

Lemma finite_d2e x : is_finite x = true -> d2e x = Fin (B2R x).
Proof. destruct x as [|[]| |]; simpl; congruence. Qed.

Lemma d2e_bounds_fin x : is_finite x = true -> exists r, d2e x = Fin r.
Proof. eauto using finite_d2e. Qed.

Lemma dle_spec x y : is_nan x = false -> is_nan y = false ->
  (dle x y = true <-> ext_le (d2e x) (d2e y)).
Proof.
  intros Nx Ny; unfold dle.
  destruct (is_finite x) eqn:Fx, (is_finite y) eqn:Fy.
  - rewrite Bleb_correct by assumption. rewrite !finite_d2e by assumption. simpl.
    destruct (Rle_bool_spec (B2R x) (B2R y)); split; intros; try discriminate; auto; lra.
  - destruct y as [sy|[]| |]; try discriminate; destruct x as [sx|[]| |sx m e B]; try discriminate;
      cbn; try destruct sx; split; intros; try discriminate; tauto.
  - destruct x as [sx|[]| |]; try discriminate; destruct y as [sy|[]| |sy m e B]; try discriminate;
      cbn; try destruct sy; split; intros; try discriminate; tauto.
  - destruct x as [sx|[]| |]; try discriminate; destruct y as [sy|[]| |]; try discriminate; cbn;
    split; intros; try discriminate; tauto.
Qed.

Lemma dle_not_nan x y : dle x y = true -> is_nan x = false /\ is_nan y = false.
Proof. destruct x as [|[]| |[]], y as [|[]| |[]]; cbn; auto; discriminate. Qed.

Lemma dle_true x y : dle x y = true -> ext_le (d2e x) (d2e y).
Proof. intros H; destruct (dle_not_nan _ _ H); apply dle_spec; auto. Qed.

Lemma dle_false x y : is_nan x = false -> is_nan y = false -> dle x y = false -> ext_lt (d2e y) (d2e x).
Proof.
  intros Nx Ny H C. apply (proj2 (dle_spec x y Nx Ny)) in C. congruence.
Qed.

Lemma dlt_dle x y : is_nan x = false -> is_nan y = false -> dlt x y = negb (dle y x).
Proof.
  intros Nx Ny. unfold dlt, dle, Bltb, Bleb, SpecFloat.SFltb, SpecFloat.SFleb.
  change (SpecFloat.SFcompare (B2SF x) (B2SF y)) with (Bcompare x y).
  change (SpecFloat.SFcompare (B2SF y) (B2SF x)) with (Bcompare y x).
  rewrite (Bcompare_swap _ _ x y).
  destruct (Bcompare x y) as [[]|] eqn:E; simpl; auto.
  exfalso. destruct x as [|[]| |[]], y as [|[]| |[]]; cbn in *; try discriminate;
  try (destruct (Z.compare _ _); try discriminate; destruct (Pcompare _ _ _); discriminate).
Qed.

Lemma dlt_not_nan x y : dlt x y = true -> is_nan x = false /\ is_nan y = false.
Proof. destruct x as [|[]| |[]], y as [|[]| |[]]; cbn; auto; discriminate. Qed.

Lemma dlt_spec x y : is_nan x = false -> is_nan y = false ->
  (dlt x y = true <-> ext_lt (d2e x) (d2e y)).
Proof.
  intros Nx Ny. rewrite dlt_dle by assumption. unfold ext_lt.
  rewrite <- (dle_spec y x Ny Nx). destruct (dle y x); simpl; split; congruence.
Qed.

Lemma dlt_true x y : dlt x y = true -> ext_lt (d2e x) (d2e y).
Proof. intros H; destruct (dlt_not_nan _ _ H); apply dlt_spec; auto. Qed.

Lemma deq_spec x y : is_nan x = false -> is_nan y = false ->
  (deq x y = true <-> d2e x = d2e y).
Proof.
  intros Nx Ny; unfold deq.
  destruct (is_finite x) eqn:Fx, (is_finite y) eqn:Fy.
  - rewrite Beqb_correct by assumption. rewrite !finite_d2e by assumption.
    destruct (Req_bool_spec (B2R x) (B2R y)); split; intros; try discriminate; congruence.
  - destruct y as [sy|[]| |]; try discriminate; destruct x as [sx|[]| |sx m e B]; try discriminate;
      cbn; try destruct sx; split; intros; discriminate.
  - destruct x as [sx|[]| |]; try discriminate; destruct y as [sy|[]| |sy m e B]; try discriminate;
      cbn; try destruct sy; split; intros; discriminate.
  - destruct x as [sx|[]| |]; try discriminate; destruct y as [sy|[]| |]; try discriminate; cbn;
    split; intros; try discriminate; reflexivity.
Qed.

Lemma deq_not_nan x y : deq x y = true -> is_nan x = false /\ is_nan y = false.
Proof. destruct x as [|[]| |[]], y as [|[]| |[]]; cbn; auto; discriminate. Qed.

Lemma deq_true x y : deq x y = true -> d2e x = d2e y.
Proof. intros H; destruct (deq_not_nan _ _ H); apply deq_spec; auto. Qed.

Notation dfmt := (generic_format radix2 (SpecFloat.fexp prec64 emax64)).

Lemma dbl_format (x : dbl) : dfmt (B2R x).
Proof. apply generic_format_B2R. Qed.

(** ** Successor / predecessor *)

Lemma ulp0_pos : 0 < ulp radix2 (SpecFloat.fexp prec64 emax64) 0.
Proof.
  change (SpecFloat.fexp prec64 emax64) with (FLT_exp (3 - emax64 - prec64) prec64).
  rewrite ulp_FLT_0 by reflexivity. apply bpow_gt_0.
Qed.

(** Nothing representable lies strictly between [x] and [Bsucc x]; reals may. *)
Lemma Bsucc_gt (x : dbl) : is_finite x = true -> ext_lt (d2e x) (d2e (Bsucc x)).
Proof.
  intros Fx. generalize (Bsucc_correct prec64 emax64 _ _ x Fx).
  destruct (Rlt_bool_spec (succ radix2 (SpecFloat.fexp prec64 emax64) (B2R x)) (bpow radix2 emax64)) as [H|H].
  - intros (HR & HF & _). rewrite !finite_d2e by assumption. apply ext_lt_fin.
    rewrite HR. destruct (Req_dec (B2R x) 0) as [E|E].
    + rewrite E, succ_0. apply ulp0_pos.
    + apply succ_gt_id; assumption.
  - intros HS. destruct (Bsucc x) as [|[]| |] eqn:E; simpl in HS; try discriminate.
    rewrite (finite_d2e x Fx). intro C; exact C.
Qed.

Lemma Bpred_lt (x : dbl) : is_finite x = true -> ext_lt (d2e (Bpred x)) (d2e x).
Proof.
  intros Fx. generalize (Bpred_correct prec64 emax64 _ _ x Fx).
  destruct (Rlt_bool_spec (- bpow radix2 emax64) (pred radix2 (SpecFloat.fexp prec64 emax64) (B2R x))) as [H|H].
  - intros (HR & HF & _). rewrite !finite_d2e by assumption. apply ext_lt_fin.
    rewrite HR. destruct (Req_dec (B2R x) 0) as [E|E].
    + rewrite E, pred_0. generalize ulp0_pos. lra.
    + apply pred_lt_id; assumption.
  - intros HS. destruct (Bpred x) as [|[]| |] eqn:E; simpl in HS; try discriminate.
    rewrite (finite_d2e x Fx). intro C; exact C.
Qed.

(** A double strictly greater than [x] is at least [Bsucc x]. *)
Lemma Bsucc_least (x y : dbl) : is_finite x = true -> is_nan y = false ->
  ext_lt (d2e x) (d2e y) -> ext_le (d2e (Bsucc x)) (d2e y).
Proof.
  intros Fx Ny Hlt. generalize (Bsucc_correct prec64 emax64 _ _ x Fx).
  rewrite (finite_d2e x Fx) in Hlt.
  destruct (Rlt_bool_spec (succ radix2 (SpecFloat.fexp prec64 emax64) (B2R x)) (bpow radix2 emax64)) as [H|H].
  - intros (HR & HF & _). rewrite (finite_d2e (Bsucc x) HF), HR.
    destruct (is_finite y) eqn:Fy.
    + rewrite (finite_d2e y Fy) in *. apply ext_lt_fin in Hlt. simpl.
      apply succ_le_lt; try apply dbl_format; try exact Hlt; try apply FLT_exp_valid; reflexivity.
    + destruct y as [|[]| |]; try discriminate; simpl in *; auto. elim Hlt; exact I.
  - intros HS. destruct (is_finite y) eqn:Fy.
    + exfalso. rewrite (finite_d2e y Fy) in *. apply ext_lt_fin in Hlt.
      assert (succ radix2 (SpecFloat.fexp prec64 emax64) (B2R x) <= B2R y).
      { apply succ_le_lt; try apply dbl_format; try exact Hlt; apply FLT_exp_valid; reflexivity. }
      generalize (abs_B2R_lt_emax prec64 emax64 y). intros A.
      apply Rabs_def2 in A. lra.
    + destruct y as [|[]| |]; try discriminate; simpl in *.
      * elim Hlt; exact I.
      * destruct (d2e (Bsucc x)); exact I.
Qed.

Lemma Bpred_greatest (x y : dbl) : is_finite x = true -> is_nan y = false ->
  ext_lt (d2e y) (d2e x) -> ext_le (d2e y) (d2e (Bpred x)).
Proof.
  intros Fx Ny Hlt. generalize (Bpred_correct prec64 emax64 _ _ x Fx).
  rewrite (finite_d2e x Fx) in Hlt.
  destruct (Rlt_bool_spec (- bpow radix2 emax64) (pred radix2 (SpecFloat.fexp prec64 emax64) (B2R x))) as [H|H].
  - intros (HR & HF & _). rewrite (finite_d2e (Bpred x) HF), HR.
    destruct (is_finite y) eqn:Fy.
    + rewrite (finite_d2e y Fy) in *. apply ext_lt_fin in Hlt. simpl.
      apply pred_ge_gt; try apply dbl_format; try exact Hlt; try apply FLT_exp_valid; reflexivity.
    + destruct y as [|[]| |]; try discriminate; simpl in *; auto. elim Hlt; exact I.
  - intros HS. destruct (is_finite y) eqn:Fy.
    + exfalso. rewrite (finite_d2e y Fy) in *. apply ext_lt_fin in Hlt.
      assert (B2R y <= pred radix2 (SpecFloat.fexp prec64 emax64) (B2R x)).
      { apply pred_ge_gt; try apply dbl_format; try exact Hlt; apply FLT_exp_valid; reflexivity. }
      generalize (abs_B2R_lt_emax prec64 emax64 y). intros A.
      apply Rabs_def2 in A. lra.
    + destruct y as [|[]| |]; try discriminate; simpl in *; auto.
      elim Hlt; exact I.
Qed.

(** ** Rounding to integers *)
Lemma round_FIX0 (f : R -> Z) (x : R) : round radix2 (FIX_exp 0) f x = IZR (f x).
Proof.
  unfold round, F2R, scaled_mantissa, cexp, FIX_exp; simpl. now rewrite 2!Rmult_1_r.
Qed.

Lemma dceil_R x : B2R (dceil x) = IZR (Zceil (B2R x)).
Proof. unfold dceil. destruct (Bnearbyint_correct prec64 emax64 _ mode_UP x) as (H & _). rewrite H. apply round_FIX0. Qed.
Lemma dfloor_R x : B2R (dfloor x) = IZR (Zfloor (B2R x)).
Proof. unfold dfloor. destruct (Bnearbyint_correct prec64 emax64 _ mode_DN x) as (H & _). rewrite H. apply round_FIX0. Qed.
Lemma dtrunc_R x : B2R (dtrunc x) = IZR (Ztrunc (B2R x)).
Proof. unfold dtrunc. destruct (Bnearbyint_correct prec64 emax64 _ mode_ZR x) as (H & _). rewrite H. apply round_FIX0. Qed.
Lemma dceil_fin x : is_finite (dceil x) = is_finite x.
Proof. unfold dceil. now destruct (Bnearbyint_correct prec64 emax64 _ mode_UP x) as (_ & H & _). Qed.
Lemma dfloor_fin x : is_finite (dfloor x) = is_finite x.
Proof. unfold dfloor. now destruct (Bnearbyint_correct prec64 emax64 _ mode_DN x) as (_ & H & _). Qed.

Lemma dceil_inf s : dceil (B754_infinity s) = B754_infinity s.
Proof. reflexivity. Qed.
Lemma dfloor_inf s : dfloor (B754_infinity s) = B754_infinity s.
Proof. reflexivity. Qed.
