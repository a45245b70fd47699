(** * Tightening and extraction of the reported model *)
From Coq Require Import ZArith Reals Lra Lia List Bool Arith.
From Flocq Require Import Core.Core IEEE754.BinarySingleNaN.
From Verif Require Import Dbl DblProofs Syntax Sem FormulaCons FormulaConsProofs Interval IntervalProofs MathConv MathConvProofs IEval IEvalProofs Contr Icp Filter FilterProofs Theory IteElim Sat Context SpecCtx SpecModel.
Import ListNotations.
#[local] Opaque dZ.

(** ** Rounded sums *)
Section Sum.
  Local Open Scope R_scope.
  Notation rnd := (round radix2 (SpecFloat.fexp prec64 emax64) (round_mode mode_NE)).
  Notation ul := (ulp radix2 (SpecFloat.fexp prec64 emax64)).
  Lemma fexp_FLT_vexp : Valid_exp (SpecFloat.fexp prec64 emax64). Proof. apply fexp_correct. reflexivity. Qed.
  Local Existing Instance fexp_FLT_vexp.
  Lemma dfmt_gen (x : dbl) : generic_format radix2 (SpecFloat.fexp prec64 emax64) (B2R x). Proof. apply generic_format_B2R. Qed.

  Lemma bsign_zero (y : dbl) : is_finite y = true -> 0 <= B2R y -> Bsign y = true -> B2R y = 0.
  Proof.
    destruct y as [[|]|[|]| |[|] m e H]; cbn [is_finite B2R Bsign]; try discriminate; auto. intros _ P _. exfalso.
    assert (F2R (Float radix2 (Zneg m) e) < 0) by (apply F2R_lt_0; reflexivity). cbn [SpecFloat.cond_Zopp Z.opp] in P. lra.
  Qed.
  Lemma abs_lt_max (x : dbl) : Rabs (B2R x) < bpow radix2 emax64. Proof. apply abs_B2R_lt_emax. Qed.
  Lemma rnd_self (x : dbl) : rnd (B2R x) = B2R x. Proof. apply round_generic; [typeclasses eauto|apply dfmt_gen]. Qed.

  Lemma dadd_cases x y : is_finite x = true -> is_finite y = true -> let r := rnd (B2R x + B2R y) in
    (Rabs r < bpow radix2 emax64 /\ d2e (dadd x y) = Fin r /\ is_nan (dadd x y) = false) \/
    (bpow radix2 emax64 <= Rabs r /\ dadd x y = B754_infinity (Bsign x) /\ Bsign x = Bsign y).
  Proof.
    intros Fx Fy. cbn zeta. pose proof (Bplus_correct prec64 emax64 _ _ mode_NE x y Fx Fy) as P. unfold dadd.
    match type of P with context [Rlt_bool ?a ?b] => destruct (Rlt_bool_spec a b) as [H|H] end.
    - destruct P as (P1 & P2 & _). left. split; [exact H|]. split; [rewrite (finite_d2e _ P2); f_equal; exact P1|]. destruct (Bplus mode_NE x y); try reflexivity; discriminate P2.
    - destruct P as (P1 & P2). right. split; [exact H|]. split; [|exact P2]. cbn [binary_overflow] in P1. destruct (Bplus mode_NE x y) as [s|s| |s m e Hb]; cbn in P1; try discriminate P1. injection P1 as ->. reflexivity.
  Qed.
  Lemma dsub_cases x y : is_finite x = true -> is_finite y = true -> let r := rnd (B2R x - B2R y) in
    (Rabs r < bpow radix2 emax64 /\ d2e (dsub x y) = Fin r /\ is_nan (dsub x y) = false) \/
    (bpow radix2 emax64 <= Rabs r /\ dsub x y = B754_infinity (Bsign x) /\ Bsign x = negb (Bsign y)).
  Proof.
    intros Fx Fy. cbn zeta. pose proof (Bminus_correct prec64 emax64 _ _ mode_NE x y Fx Fy) as P. unfold dsub.
    match type of P with context [Rlt_bool ?a ?b] => destruct (Rlt_bool_spec a b) as [H|H] end.
    - destruct P as (P1 & P2 & _). left. split; [exact H|]. split; [rewrite (finite_d2e _ P2); f_equal; exact P1|]. destruct (Bminus mode_NE x y); try reflexivity; discriminate P2.
    - destruct P as (P1 & P2). right. split; [exact H|]. split; [|exact P2]. cbn [binary_overflow] in P1. destruct (Bminus mode_NE x y) as [s|s| |s m e Hb]; cbn in P1; try discriminate P1. injection P1 as ->. reflexivity.
  Qed.
  Lemma sum_sides x y : is_finite x = true -> is_finite y = true -> 0 <= B2R y ->
    ext_le (d2e x) (d2e (dadd x y)) /\ ext_le (d2e (dsub x y)) (d2e x) /\ is_nan (dadd x y) = false /\ is_nan (dsub x y) = false.
  Proof.
    intros Fx Fy Py. rewrite (finite_d2e x Fx).
    assert (A : ext_le (Fin (B2R x)) (d2e (dadd x y)) /\ is_nan (dadd x y) = false).
    { destruct (dadd_cases x y Fx Fy) as [(H1 & H2 & H3)|(H1 & H2 & H3)].
      - rewrite H2. split; [|exact H3]. cbn [ext_le]. rewrite <- (rnd_self x) at 1. apply round_le; [typeclasses eauto|typeclasses eauto|lra].
      - rewrite H2. destruct (Bsign x) eqn:Es; [|split; [exact I|reflexivity]]. exfalso. rewrite (bsign_zero y Fy Py (eq_sym H3)), Rplus_0_r, rnd_self in H1.
        pose proof (abs_lt_max x). lra. }
    assert (B : ext_le (d2e (dsub x y)) (Fin (B2R x)) /\ is_nan (dsub x y) = false).
    { destruct (dsub_cases x y Fx Fy) as [(H1 & H2 & H3)|(H1 & H2 & H3)].
      - rewrite H2. split; [|exact H3]. cbn [ext_le]. rewrite <- (rnd_self x) at 2. apply round_le; [typeclasses eauto|typeclasses eauto|lra].
      - rewrite H2. destruct (Bsign x) eqn:Es; [split; [exact I|reflexivity]|]. exfalso. destruct (Bsign y) eqn:Ey; [|discriminate].
        rewrite (bsign_zero y Fy Py Ey), Rminus_0_r, rnd_self in H1. pose proof (abs_lt_max x). lra. }
    tauto.
  Qed.
  (** How far the rounded sum can be from [x]. *)
  Lemma sum_near x y b t : is_finite x = true -> is_finite y = true -> 0 <= B2R y -> Rabs (B2R x) + B2R y <= b -> b <= bpow radix2 1023 ->
    (ext_le (Fin t) (d2e (dadd x y)) -> t <= B2R x + B2R y + / 2 * ul b) /\
    (ext_le (d2e (dsub x y)) (Fin t) -> B2R x - B2R y - / 2 * ul b <= t).
  Proof.
    intros Fx Fy Py Hb B1. pose proof (Rabs_pos (B2R x)) as Pa.
    assert (Small : forall z, Rabs z <= b -> Rabs (rnd z) < bpow radix2 emax64).
    { intros z Hz. apply Rle_lt_trans with (bpow radix2 1023); [|apply bpow_lt; reflexivity].
      apply abs_round_le_generic; [typeclasses eauto|typeclasses eauto|apply generic_format_bpow; cbn; lia|lra]. }
    assert (Err : forall z, Rabs z <= b -> Rabs (rnd z - z) <= / 2 * ul b).
    { intros z Hz. apply Rle_trans with (/ 2 * ul z); [apply error_le_half_ulp; typeclasses eauto|]. apply Rmult_le_compat_l; [lra|].
      apply ulp_le; [typeclasses eauto|typeclasses eauto|]. rewrite (Rabs_pos_eq b) by lra. exact Hz. }
    split; intros Ht.
    - destruct (dadd_cases x y Fx Fy) as [(H1 & H2 & H3)|(H1 & _)].
      + rewrite H2 in Ht. cbn [ext_le] in Ht. assert (Z : Rabs (B2R x + B2R y) <= b) by (eapply Rle_trans; [apply Rabs_triang|]; rewrite (Rabs_pos_eq (B2R y)) by lra; lra).
        pose proof (Err _ Z) as E. apply Rabs_le_inv in E. lra.
      + exfalso. assert (Z : Rabs (B2R x + B2R y) <= b) by (eapply Rle_trans; [apply Rabs_triang|]; rewrite (Rabs_pos_eq (B2R y)) by lra; lra). pose proof (Small _ Z). lra.
    - assert (Z : Rabs (B2R x - B2R y) <= b).
      { unfold Rminus. eapply Rle_trans; [apply Rabs_triang|]. rewrite Rabs_Ropp, (Rabs_pos_eq (B2R y)) by lra. lra. }
      destruct (dsub_cases x y Fx Fy) as [(H1 & H2 & H3)|(H1 & _)]; [|exfalso; pose proof (Small _ Z); lra].
      rewrite H2 in Ht. cbn [ext_le] in Ht. pose proof (Err _ Z) as E. apply Rabs_le_inv in E. lra.
  Qed.
End Sum.

(** ** Specification of tightening *)
(** Finite bounds are integers. *)
Section Tighten.
  Local Open Scope R_scope.
  Local Existing Instance fexp_FLT_vexp.
  Variables (mid : dbl -> dbl -> dbl) (precision : dbl).
  Hypothesis Hm : mid_ok mid.
  Hypothesis Fp : is_finite precision = true.
  Hypothesis Pp : 0 < B2R precision.
  Notation ul := (ulp radix2 (SpecFloat.fexp prec64 emax64)).

  Lemma point_mem z : (Z.abs z <= 2 ^ 53)%Z -> forall x, imem x (i_point (dZ z)) <-> x = IZR z.
  Proof.
    intros Hz x. destruct (dZ_exact z Hz) as [F E].
    assert (Nn : is_nan (dZ z) = false) by (destruct (dZ z); try reflexivity; discriminate F). unfold i_point. rewrite (mk_ival_mem x _ _ Nn Nn), (finite_d2e _ F), E. cbn [ext_le]. split; [lra|intros ->; lra].
  Qed.
  Lemma bounded_finite l u p a b : i_ok (IV l u) -> imem p (IV l u) -> (forall x, imem x (IV l u) -> a <= x <= b) -> is_finite l = true /\ is_finite u = true.
  Proof.
    intros K Hp H. destruct (i_ok_nan _ _ K) as [Nl0 Nu0]. cbn [imem] in Hp. destruct Hp as [H1 H2]. split.
    - destruct l as [s|[|]| |s mm e Hb]; try reflexivity; exfalso.
      + assert (X : imem (Rmin (a - 1) p) (IV (B754_infinity true) u)). { cbn [imem d2e]. split; [exact I|]. apply ext_le_trans with (Fin p); [|exact H2]. cbn [ext_le]. apply Rmin_r. }
        pose proof (H _ X). pose proof (Rmin_l (a - 1) p). lra.
      + cbn in H1. exact H1.
      + discriminate Nl0.
    - destruct u as [s|[|]| |s mm e Hb]; try reflexivity; exfalso.
      + cbn in H2. exact H2.
      + assert (X : imem (Rmax (b + 1) p) (IV l (B754_infinity false))). { cbn [imem d2e]. split; [|exact I]. apply ext_le_trans with (Fin p); [exact H1|]. cbn [ext_le]. apply Rmax_r. }
        pose proof (H _ X). pose proof (Rmax_l (b + 1) p). lra.
      + discriminate Nu0.
  Qed.
  Lemma trunc_in d r : i_ok d -> int_ends d -> imem r d -> imem (IZR (Ztrunc r)) d.
  Proof.
    destruct d as [|l u]; [intros _ _ []|]. intros K [H1 H2] [Ml Mu]. destruct (i_ok_nan _ _ K) as [Nl0 Nu0]. cbn [imem].
    destruct (Rle_lt_dec 0 r) as [Hs|Hs].
    - assert (Tr : Ztrunc r = Zfloor r) by (apply Ztrunc_floor; exact Hs). rewrite Tr. split.
      + destruct (is_finite l) eqn:Fl.
        * rewrite (finite_d2e _ Fl) in *. cbn [ext_le] in *. destruct (H1 eq_refl) as [z Ez]. rewrite Ez in *. apply IZR_le. apply Zfloor_lub. exact Ml.
        * destruct l as [s|[|]| |s mm e Hb]; cbn in Ml |- *; auto; first [discriminate Fl|discriminate Nl0|contradiction].
      + apply ext_le_trans with (Fin r); [|exact Mu]. cbn [ext_le]. apply Zfloor_lb.
    - assert (Tr : Ztrunc r = Zceil r) by (apply Ztrunc_ceil; lra). rewrite Tr. split.
      + apply ext_le_trans with (Fin r); [exact Ml|]. cbn [ext_le]. apply Zceil_ub.
      + destruct (is_finite u) eqn:Fu.
        * rewrite (finite_d2e _ Fu) in *. cbn [ext_le] in *. destruct (H2 eq_refl) as [z Ez]. rewrite Ez in *. apply IZR_le. apply Zceil_glb. exact Mu.
        * destruct u as [s|[|]| |s mm e Hb]; cbn in Mu |- *; auto; first [discriminate Fu|discriminate Nu0|contradiction].
  Qed.
  Lemma half_prec : let h := ddiv precision (dZ 2) in is_finite h = true /\ 0 <= B2R h /\ B2R h <= B2R precision /\
    forall b, B2R precision <= b -> B2R h <= B2R precision / 2 + / 2 * ul b.
  Proof.
    cbn zeta. destruct (dZ_exact 2) as [F2 E2]; [lia|].
    assert (N2 : B2R (dZ 2) <> 0) by (rewrite E2; lra).
    pose proof (Bdiv_correct prec64 emax64 _ _ mode_NE precision (dZ 2) N2) as P. fold (ddiv precision (dZ 2)) in P. rewrite E2 in P.
    set (r := round radix2 (SpecFloat.fexp prec64 emax64) (round_mode mode_NE) (B2R precision / 2)) in *.
    assert (R0 : 0 <= r) by (apply round_ge_generic; [typeclasses eauto|typeclasses eauto|apply generic_format_0|lra]).
    assert (R1 : r <= B2R precision) by (apply round_le_generic; [typeclasses eauto|typeclasses eauto|apply dfmt_gen|lra]).
    assert (L : Rabs r < bpow radix2 emax64) by (rewrite Rabs_pos_eq by exact R0; pose proof (abs_lt_max precision) as X; rewrite Rabs_pos_eq in X by lra; lra).
    rewrite Rlt_bool_true in P by exact L. destruct P as (P1 & P2 & _).
    split; [rewrite P2; exact Fp|]. rewrite P1. split; [exact R0|]. split; [exact R1|]. intros b Hb.
    assert (E : Rabs (r - B2R precision / 2) <= / 2 * ul b).
    { apply Rle_trans with (/ 2 * ul (B2R precision / 2)); [apply error_le_half_ulp; typeclasses eauto|]. apply Rmult_le_compat_l; [lra|].
      apply ulp_le; [typeclasses eauto|typeclasses eauto|]. rewrite !Rabs_pos_eq by lra. lra. }
    apply Rabs_le_inv in E. lra.
  Qed.

  Lemma tighten_dim_ok t i j : i_ok i -> i_empty i = false -> tighten_dim mid precision t i = Some j -> i_ok j /\ i_empty j = false /\ tight_ok precision t i j.
  Proof.
    intros K Ne E. destruct i as [|l u]; [discriminate|]. unfold tighten_dim in E. destruct (dgt (i_diam (IV l u)) precision) eqn:Ed.
    - pose proof (Hm l u K) as (Fm & Ml & Mu). cbn [ilb iub] in E. set (m := mid l u) in *.
      assert (P1 : forall x, imem x (i_point (dZ 1)) <-> x = 1) by (intros x; apply (point_mem 1); lia).
      assert (Ne1 : i_empty (i_point (dZ 1)) = false) by (apply (imem_nonempty 1); apply P1; reflexivity).
      assert (In1 : forall d, i_ok d -> int_ends d -> (forall x, imem x d -> 0 <= x <= 1) -> (forall x, imem x (IV l u) -> imem x d) -> imem 1 d).
      { intros d Kd Hd H3 Hs. pose proof K as (Kle & K1 & K2). apply dle_true in Kle.
        assert (Lm : imem (B2R m) (IV l u)) by (cbn [imem]; rewrite <- (finite_d2e m Fm); split; apply dle_true; assumption).
        destruct (bounded_finite l u (B2R m) 0 1 K Lm) as [Fl Fu]; [intros x Hx; apply H3, Hs, Hx|].
        rewrite (finite_d2e _ Fl), (finite_d2e _ Fu) in Kle. cbn [ext_le] in Kle.
        assert (Iu : imem (B2R u) d) by (apply Hs; cbn [imem]; rewrite (finite_d2e _ Fl), (finite_d2e _ Fu); cbn [ext_le]; lra).
        assert (Il : imem (B2R l) d) by (apply Hs; cbn [imem]; rewrite (finite_d2e _ Fl), (finite_d2e _ Fu); cbn [ext_le]; lra).
        assert (Nl : B2R l < B2R u).
        { destruct (Rle_lt_or_eq_dec _ _ Kle) as [X|X]; [exact X|exfalso]. cbn [i_diam] in Ed. pose proof (Bminus_correct prec64 emax64 _ _ mode_UP u l Fu Fl) as C.
          replace (B2R u - B2R l) with 0 in C by lra. rewrite round_0 in C by typeclasses eauto. rewrite Rabs_R0, Rlt_bool_true in C by apply bpow_gt_0. destruct C as (C1 & C2 & _).
          unfold dgt in Ed. assert (Nd : is_nan (Bminus mode_UP u l) = false) by (destruct (Bminus mode_UP u l); try reflexivity; discriminate C2).
          change (dlt precision (Bminus mode_UP u l) = true) in Ed. apply dlt_true in Ed. rewrite (finite_d2e _ Fp), (finite_d2e _ C2) in Ed. apply ext_lt_fin in Ed. lra. }
        destruct d as [|dl du]; [contradiction Iu|]. destruct (bounded_finite dl du _ 0 1 Kd Iu H3) as [Fdl Fdu].
        destruct Hd as [H1 H2]. destruct (H2 Fdu) as [z Ez]. pose proof (H3 _ Il) as Bl. cbn [imem] in Iu, Il. rewrite (finite_d2e _ Fdl), (finite_d2e _ Fdu) in Iu, Il. cbn [ext_le] in Iu, Il.
        assert (Bu : 0 <= B2R du <= 1) by (apply H3; cbn [imem]; rewrite (finite_d2e _ Fdl), (finite_d2e _ Fdu); cbn [ext_le]; lra).
        assert (z = 1)%Z. { rewrite Ez in Bu, Iu. assert (0 < z)%Z by (apply lt_IZR; lra). assert (z <= 1)%Z by (apply le_IZR; lra). lia. }
        subst z. cbn [imem]. rewrite (finite_d2e _ Fdl), (finite_d2e _ Fdu), Ez. cbn [ext_le]. lra. }
      destruct t.
      + (* CONTINUOUS *) injection E as <-. destruct half_prec as (Fh & Ph & Hh & Bh). set (h := ddiv precision (dZ 2)) in *.
        destruct (sum_sides m h Fm Fh Ph) as (S1 & S2 & N1 & N2). rewrite (finite_d2e m Fm) in S1, S2.
        assert (Im : imem (B2R m) (IV l u)) by (cbn [imem]; rewrite <- (finite_d2e m Fm); split; apply dle_true; assumption).
        assert (Ko : i_ok (mk_ival (dsub m h) (dadd m h))) by apply mk_ival_ok.
        assert (Imj : imem (B2R m) (i_inter (IV l u) (mk_ival (dsub m h) (dadd m h)))) by (apply i_inter_mem; auto; split; [exact Im|apply mk_ival_mem; auto]).
        split; [exact (i_inter_ok (IV l u) (mk_ival (dsub m h) (dadd m h)))|]. split; [exact (imem_nonempty _ _ Imj)|]. split; [exists (B2R m); exact Imj|]. split.
        * intros x Hx. apply (proj1 (i_inter_mem x (IV l u) _ K Ko)) in Hx. apply Hx.
        * exists (B2R m). split; [exact Imj|]. intros Hb x Hx. apply (proj1 (i_inter_mem x (IV l u) _ K Ko)) in Hx. destruct Hx as [_ Hx]. apply mk_ival_mem in Hx; auto. destruct Hx as [Hx1 Hx2].
          assert (Hs : Rabs (B2R m) + B2R h <= Rabs (B2R m) + B2R precision) by lra.
          destruct (sum_near m h (Rabs (B2R m) + B2R precision) x Fm Fh Ph Hs Hb) as [X1 X2].
          specialize (X1 Hx2). specialize (X2 Hx1). pose proof (Rabs_pos (B2R m)). specialize (Bh (Rabs (B2R m) + B2R precision) ltac:(lra)). unfold ulp64.
          apply Rabs_le. split; lra.
      + (* INTEGER *) unfold cast_int in E. rewrite Fm in E. destruct (int_lo <=? Btrunc m)%Z eqn:E1; cbn [andb bind] in E; [|discriminate].
        destruct (Btrunc m <=? int_hi)%Z eqn:E2; cbn [bind] in E; [|discriminate]. injection E as <-. apply Z.leb_le in E1, E2. unfold int_lo, int_hi in *.
        assert (P : forall x, imem x (i_point (dZ (Btrunc m))) <-> x = IZR (Btrunc m)) by (apply point_mem; lia).
        assert (Et : IZR (Btrunc m) = IZR (Ztrunc (B2R m))) by (rewrite Btrunc_correct by apply prec64_lt_emax; rewrite round_FIX0; reflexivity). apply eq_IZR in Et.
        split; [apply mk_ival_ok|]. split; [apply (imem_nonempty (IZR (Btrunc m))), P; reflexivity|]. split; [exists (IZR (Btrunc m)); apply P; reflexivity|].
        split; [intros _; exists (Btrunc m); exact P|]. split; [intros C; congruence|].
        intros d Kd Hd Hs x Hx. apply P in Hx. subst x. rewrite Et.
        assert (Lm : imem (B2R m) d) by (apply Hs; cbn [imem]; rewrite <- (finite_d2e m Fm); split; apply dle_true; assumption).
        apply trunc_in; assumption.
      + injection E as <-. split; [apply mk_ival_ok|]. split; [exact Ne1|]. split; [exists 1; apply P1; reflexivity|]. split; [intros _; exact P1|]. split; [congruence|].
        intros d H0 H1 H2 H3 x Hx. apply P1 in Hx. subst x. apply In1; assumption.
      + injection E as <-. split; [apply mk_ival_ok|]. split; [exact Ne1|]. split; [exists 1; apply P1; reflexivity|]. split; [intros _; exact P1|]. split; [congruence|].
        intros d H0 H1 H2 H3 x Hx. apply P1 in Hx. subst x. apply In1; assumption.
    - injection E as <-. split; [exact K|]. split; [exact Ne|]. destruct (i_diam_width l u precision K Fp Ed) as (Fl & Fu & W).
      assert (Kl : B2R l <= B2R u) by (destruct K as (Kle & _); apply dle_true in Kle; rewrite (finite_d2e _ Fl), (finite_d2e _ Fu) in Kle; exact Kle).
      assert (Mb : forall x, imem x (IV l u) <-> B2R l <= x <= B2R u) by (intros x; cbn [imem]; rewrite (finite_d2e _ Fl), (finite_d2e _ Fu); cbn [ext_le]; tauto).
      split; [exists (B2R l); apply Mb; lra|]. destruct t; (split; [auto|]); try congruence; try (split; auto; fail).
      exists ((B2R l + B2R u) / 2). split; [apply Mb; lra|]. intros _ x Hx. apply Mb in Hx.
      pose proof (ulp_ge_0 radix2 (SpecFloat.fexp prec64 emax64) (Rabs ((B2R l + B2R u) / 2) + B2R precision)) as U. unfold ulp64. apply Rabs_le. split; lra.
  Qed.
End Tighten.
