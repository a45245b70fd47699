(** Which literals are accepted; interpreting them *)
From Coq Require Import ZArith Reals Lra Lia List Bool Ascii String ClassicalDescription.
From Flocq Require Import Core.Core IEEE754.BinarySingleNaN.
From Verif Require Import Dbl DblProofs Interval IntervalProofs Syntax Sem SemProofs MathConv MathConvProofs Literal SpecLiteral LiteralProofs.
Import ListNotations.
Local Open Scope Z_scope.

Section Accept.
  Variables (under : mode -> string -> bool) (mid : dbl -> dbl -> dbl).
  Lemma fmt_bpow k : -1074 <= k -> generic_format radix2 fexp64 (bpow radix2 k).
  Proof. intros H. apply generic_format_bpow. unfold SpecFloat.fexp, SpecFloat.emin, prec64, emax64. lia. Qed.
  Lemma stod_some md t : well_formed t -> (value t = 0 \/ bpow radix2 (-1021) <= Rabs (value t) <= B2R dmax)%R -> exists c, stod under md (show t) = Some c.
  Proof.
    intros W. unfold stod. rewrite (reads_show t W). fold (minus t). rewrite value_eq. set (m := number _). set (e := (_ - _)%Z).
    assert (Hm : 0 <= m) by (apply digits_nonneg; lia). pose proof (dec_den_pos e) as Hd. intros V.
    destruct (Z.eq_dec m 0) as [Z0|Z0].
    - rewrite Z0. unfold round_dec. cbn [Z.eqb is_finite negb orb exactly andb].
      replace (2 ^ 1024 * dec_den e <=? dec_num 0 e) with false; [eexists; reflexivity|]. symmetry. apply Z.leb_gt.
      replace (dec_num 0 e) with 0 by (unfold dec_num; destruct (0 <=? e); reflexivity). apply Z.mul_pos_pos; [reflexivity|exact Hd].
    - pose proof (dec_pos m e ltac:(lia)) as Hp. set (x := (sg (minus t) * dec m e)%R) in *.
      assert (Ax : Rabs x = dec m e) by (unfold x, sg; destruct (minus t); [rewrite Rabs_left by lra; lra|rewrite Rabs_pos_eq by lra; lra]).
      destruct V as [V|[V1 V2]]; [exfalso; rewrite V, Rabs_R0 in Ax; lra|].
      assert (R1 : (Rabs (rnd md x) <= B2R dmax)%R) by (apply abs_round_le_generic; [exact vexp64|apply valid_rnd_round_mode|apply fmt|exact V2]).
      assert (R2 : (bpow radix2 (-1021) <= Rabs (rnd md x))%R) by (apply abs_round_ge_generic; [exact vexp64|apply valid_rnd_round_mode|apply fmt_bpow; lia|exact V1]).
      assert (DM : (B2R dmax < bpow radix2 emax64)%R).
      { pose proof (abs_B2R_lt_emax prec64 emax64 dmax) as X. apply Rle_lt_trans with (2 := X). apply Rle_abs. }
      pose proof (round_dec_ok md (minus t) m e ltac:(lia)) as X. cbv zeta in X. fold x in X. rewrite Rlt_bool_true in X by lra. destruct X as [X1 X2].
      rewrite X2. cbn [negb orb].
      replace (2 ^ 1024 * dec_den e <=? dec_num m e) with false.
      2: { symmetry. apply Z.leb_gt. apply lt_IZR. rewrite mult_IZR. assert (P : IZR (2 ^ 1024) = bpow radix2 emax64) by exact (IZR_Zpower radix2 1024 ltac:(lia)). rewrite P.
           apply IZR_lt in Hd. rewrite Ax, dec_frac in V2. apply Rle_lt_trans with (B2R dmax * IZR (dec_den e))%R; [|apply Rmult_lt_compat_r; lra].
           apply (Rmult_le_compat_r (IZR (dec_den e))) in V2; [|lra]. unfold Rdiv in V2. rewrite Rmult_assoc, Rinv_l, Rmult_1_r in V2 by lra. exact V2. }
      replace (dle (Babs (round_dec md (minus t) m e)) dmin_normal) with false; [rewrite andb_false_r; eexists; reflexivity|].
      symmetry. apply not_true_iff_false. intros C. set (c := round_dec md (minus t) m e) in *.
      assert (F : is_finite (Babs c) = true) by (rewrite is_finite_Babs; exact X2).
      apply dle_true in C. assert (FE : forall d : dbl, is_finite d = true -> d2e d = Fin (B2R d)) by (intros [] ?; (reflexivity || discriminate)).
      rewrite (FE _ F), (FE dmin_normal eq_refl) in C. cbn [ext_le] in C. rewrite B2R_Babs, X1 in C.
      assert (DN : B2R dmin_normal = bpow radix2 (-1022)).
      { unfold dmin_normal, mkd. pose proof (binary_normalize_correct prec64 emax64 _ _ mode_NE 1 (-1022) false) as Y.
        assert (E1 : F2R {| Fnum := 1; Fexp := -1022 |} = bpow radix2 (-1022)) by (unfold F2R; cbn [Fnum Fexp]; apply Rmult_1_l).
        cbv zeta in Y. rewrite E1 in Y. rewrite round_generic in Y; [|apply valid_rnd_round_mode|apply fmt_bpow; lia]. rewrite Rlt_bool_true in Y; [apply Y|]. rewrite Rabs_pos_eq by apply bpow_ge_0. apply bpow_lt. reflexivity. }
      rewrite DN in C. assert (bpow radix2 (-1022) < bpow radix2 (-1021))%R by (apply bpow_lt; lia). lra.
  Qed.
  Theorem number_some t : well_formed t -> (if is_int (show t) then (Rabs (value t) <= IZR (2 ^ 53))%R else n_sign t <> Plus) ->
    (value t = 0 \/ bpow radix2 (-1021) <= Rabs (value t) <= B2R dmax)%R -> exists e, read_number under mid (show t) = Some e.
  Proof.
    intros W C V. unfold read_number. destruct (is_int (show t)) eqn:I.
    - apply (is_int_ok t W) in I. destruct (int_reads t I) as [-> E]. rewrite E in C. cbv zeta. set (z := signed _ _) in *. rewrite <- abs_IZR in C. apply le_IZR in C.
      replace ((- 2 ^ 63 <=? z) && (z <? 2 ^ 63))%bool with true.
      2: { symmetry. apply andb_true_iff. split; [apply Z.leb_le|apply Z.ltb_lt]; lia. }
      destruct (convert_int64_to_double z) as [c|] eqn:Q; [eexists; reflexivity|]. apply (proj2 (to_double_spec z)) in Q. lia.
    - unfold read_double, string_to_interval. destruct (stod_some mode_UP t W V) as [u ->].
      destruct (stod_some mode_UP (opp_sign t)) as [l L]; [exact W|rewrite opp_value, Rabs_Ropp; destruct V as [V|V]; [left; lra|right; exact V]|].
      destruct (stod_some mode_NE t W V) as [p P]. pose proof (show_cases t) as K.
      destruct (n_sign t); [|now contradiction C|].
      + destruct K as [K1 K2]. rewrite K1 in L. destruct (show t) as [|c r] eqn:S; [cbn [append]; rewrite L, P; eexists; reflexivity|]. rewrite K2. cbn [append]. rewrite L, P. eexists; reflexivity.
      + rewrite K in *. change (Ascii.eqb "-" "-") with true. cbv iota. rewrite L, P. eexists; reflexivity.
  Qed.
End Accept.

(** Interpreting literals by their decimal values *)
Section Interp.
  Variables (under : mode -> string -> bool) (mid : dbl -> dbl -> dbl).
  Hypothesis HM : mid_ok mid.
  Fixpoint rc_of (ts : list numeral) (lb ub : dbl) : R :=
    match ts with
    | [] => B2R lb
    | t :: ts' => if excluded_middle_informative (exists u, read_number under mid (show t) = Some (EReal lb ub u)) then value t else rc_of ts' lb ub
    end.
  Theorem literals_interpreted ts : (forall t, In t ts -> well_formed t) ->
    (forall t t' lb ub u u', In t ts -> In t' ts -> read_number under mid (show t) = Some (EReal lb ub u) -> read_number under mid (show t') = Some (EReal lb ub u') -> value t = value t') ->
    exists rc, forall M, i_rc M = rc -> rc_ok M /\ forall t e rho, In t ts -> read_number under mid (show t) = Some e -> evalE M e rho = value t.
  Proof.
    intros W C. exists (rc_of ts). intros M EM.
    assert (FE : forall d : dbl, is_finite d = true -> d2e d = Fin (B2R d)) by (intros [] ?; (reflexivity || discriminate)).
    split.
    - intros lb ub F1 F2 L. rewrite EM. clear C EM. apply dle_true in L. rewrite !FE in * by assumption. cbn [ext_le] in *. induction ts as [|t ts IH]; [cbn [rc_of]; lra|]. cbn [rc_of]. destruct (excluded_middle_informative _) as [[u E]|_].
      + destruct (number_ok under mid HM t _ (W t (or_introl eq_refl)) E) as [(c & X & _)|(lb' & ub' & u' & X & _ & _ & B & _)]; [discriminate|]. assert (lb' = lb) by congruence. assert (ub' = ub) by congruence. subst. lra.
      + apply IH. intros t' Ht. apply W. now right.
    - intros t e rho Ht E. destruct (number_ok under mid HM t e (W t Ht) E) as [(c & -> & _ & V)|(lb & ub & u & -> & _)]; [exact V|].
      change (i_rc M lb ub = value t). rewrite EM.
      assert (G : forall l, (forall x, In x l -> In x ts) -> In t l -> rc_of l lb ub = value t).
      { induction l as [|t' l IH]; intros S Hl; [destruct Hl|]. cbn [rc_of]. destruct (excluded_middle_informative _) as [[u' E']|N].
        - apply (C t' t lb ub u' u); auto. apply S. now left.
        - destruct Hl as [->|Hl]; [exfalso; apply N; eauto|]. apply IH; auto. intros x Hx. apply S. now right. }
      apply G; auto.
  Qed.
End Interp.
