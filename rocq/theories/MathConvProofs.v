From Coq Require Import ZArith Reals Lra Lia Bool.
From Flocq Require Import Core.Core IEEE754.BinarySingleNaN.
From Verif Require Import Dbl DblProofs Syntax Sem Interval IntervalProofs MathConv.
Local Open Scope Z_scope.

Lemma dZ_exact z : Z.abs z <= 2 ^ 53 -> is_finite (dZ z) = true /\ B2R (dZ z) = IZR z.
Proof.
  intros H. unfold dZ, mkd.
  pose proof (binary_normalize_correct prec64 emax64 _ _ mode_NE z 0 false) as C.
  assert (E : F2R (Float radix2 z 0) = IZR z) by (unfold F2R; simpl; lra).
  cbn [round_mode] in C. rewrite E in C.
  rewrite round_generic in C; auto with typeclass_instances; [|now apply int_in_format].
  rewrite Rlt_bool_true in C.
  - destruct C as (A & B & _). auto.
  - rewrite <- abs_IZR. eapply Rle_lt_trans; [|apply bpow64_big]. apply IZR_le. lia.
Qed.

Lemma fin_nan (x : dbl) : is_finite x = true -> is_nan x = false.
Proof. destruct x; auto; discriminate. Qed.

Lemma is_integer_spec v :
  is_integer v = true <-> is_finite v = true /\ exists z, -2147483648 <= z <= 2147483647 /\ B2R v = IZR z.
Proof.
  unfold is_integer, int_lo, int_hi.
  destruct (dZ_exact (- 2 ^ 31)) as [FL RL]; [lia|]. destruct (dZ_exact (2 ^ 31 - 1)) as [FH RH]; [lia|].
  split.
  - destruct (dle (dZ (- 2 ^ 31)) v) eqn:L; [|discriminate]. destruct (dle v (dZ (2 ^ 31 - 1))) eqn:U; [|discriminate].
    cbn [negb andb]. intros E. apply dle_true in L. apply dle_true in U.
    rewrite (finite_d2e _ FL) in L. rewrite (finite_d2e _ FH) in U.
    assert (Fv : is_finite v = true).
    { destruct v as [|[]| |]; auto; cbn in L, U; try tauto; cbn in E; discriminate. }
    split; auto. rewrite (finite_d2e _ Fv) in L, U. cbn [ext_le] in L, U. rewrite RL in L. rewrite RH in U.
    apply deq_true in E. rewrite (finite_d2e v Fv) in E.
    assert (Ft : is_finite (dtrunc v) = true) by (unfold dtrunc; destruct (Bnearbyint_correct prec64 emax64 prec64_lt_emax mode_ZR v) as (_ & B & _); congruence).
    rewrite (finite_d2e _ Ft), dtrunc_R in E. injection E as E.
    exists (Ztrunc (B2R v)). split; auto. rewrite E in L, U. apply le_IZR in L. apply le_IZR in U. lia.
  - intros (Fv & z & Hz & E).
    assert (L : dle (dZ (- 2 ^ 31)) v = true).
    { apply dle_spec; [now apply fin_nan|now apply fin_nan|].
      rewrite !finite_d2e by auto. cbn [ext_le]. rewrite RL, E. apply IZR_le. lia. }
    assert (U : dle v (dZ (2 ^ 31 - 1)) = true).
    { apply dle_spec; [now apply fin_nan|now apply fin_nan|].
      rewrite !finite_d2e by auto. cbn [ext_le]. rewrite RH, E. apply IZR_le. lia. }
    rewrite L, U. cbn [negb andb].
    assert (Ft : is_finite (dtrunc v) = true) by (unfold dtrunc; destruct (Bnearbyint_correct prec64 emax64 prec64_lt_emax mode_ZR v) as (_ & B & _); congruence).
    apply deq_spec; [now apply fin_nan|now apply fin_nan|].
    rewrite !finite_d2e by auto. f_equal. rewrite dtrunc_R, E, Ztrunc_IZR. reflexivity.
Qed.

Lemma to_int_spec v : (forall r, convert_int64_to_int v = Some r -> r = v /\ -2147483648 <= r <= 2147483647)
  /\ (convert_int64_to_int v = None <-> ~ (-2147483648 <= v <= 2147483647)).
Proof.
  unfold convert_int64_to_int. change int_lo with (-2147483648). change int_hi with 2147483647.
  destruct (Z.leb_spec (-2147483648) v), (Z.leb_spec v 2147483647); cbn [andb];
    (split; [intros r E; try discriminate; injection E as <-; lia|]);
    (split; [intros E; try discriminate; lia|intros E; auto; exfalso; lia]).
Qed.
Lemma to_double_spec v : 
  (forall d, convert_int64_to_double v = Some d -> is_finite d = true /\ B2R d = IZR v) /\
  (convert_int64_to_double v = None <-> Z.abs v > 2 ^ 53).
Proof.
  unfold convert_int64_to_double.
  destruct (Z.leb_spec (- 2 ^ 53) v), (Z.leb_spec v (2 ^ 53)); cbn [andb];
    (split; [intros d E; try discriminate; injection E as <-; apply dZ_exact; lia|]);
    (split; [intros E; try discriminate; lia|intros E; auto; exfalso; lia]).
Qed.
