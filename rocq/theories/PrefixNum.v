(** Doubles printed with 19 digits and read back. *)
From Coq Require Import ZArith Reals Lra Lia List Bool Ascii String.
From Flocq Require Import Core.Core IEEE754.BinarySingleNaN.
From Verif Require Import Dbl DblProofs Syntax SpecLiteral Literal LiteralProofs LiteralTop Prefix.
Import ListNotations.
Local Open Scope Z_scope.

Lemma dval_dig_of z : 0 <= z < 10 -> dval (dig_of z) = z.
Proof. intros H. assert (z = 0 \/ z = 1 \/ z = 2 \/ z = 3 \/ z = 4 \/ z = 5 \/ z = 6 \/ z = 7 \/ z = 8 \/ z = 9) as C by lia. repeat destruct C as [->|C]; [reflexivity..|subst z; reflexivity]. Qed.
Lemma num_from_split ds : forall v, num_from v ds = v * 10 ^ Z.of_nat (List.length ds) + number ds.
Proof.
  induction ds as [|d ds IH]; intros v; [cbn; lia|]. unfold number. cbn [num_from List.length]. change (num_from (10 * v + dval d) ds = v * 10 ^ Z.of_nat (S (List.length ds)) + num_from (10 * 0 + dval d) ds).
  rewrite (IH (10 * v + dval d)), (IH (10 * 0 + dval d)), Nat2Z.inj_succ, Z.pow_succ_r by lia. lia.
Qed.
Lemma number_app_split a b : number (a ++ b) = number a * 10 ^ Z.of_nat (List.length b) + number b.
Proof. rewrite number_app. apply num_from_split. Qed.
Lemma digs_app k : forall m acc, digs k m acc = (digs k m [] ++ acc)%list.
Proof. induction k as [|k IH]; intros m acc; [reflexivity|]. cbn [digs]. rewrite IH, (IH _ [_]), <- app_assoc. reflexivity. Qed.
Lemma digs_length k : forall m, List.length (digs k m []) = k.
Proof. induction k as [|k IH]; intros m; [reflexivity|]. cbn [digs]. rewrite digs_app, app_length, IH. cbn. lia. Qed.
Lemma digs_number k : forall m, 0 <= m < 10 ^ Z.of_nat k -> number (digs k m []) = m.
Proof.
  induction k as [|k IH]; intros m H; [cbn in *; lia|]. cbn [digs]. rewrite digs_app, number_app_split. rewrite Nat2Z.inj_succ, Z.pow_succ_r in H by lia.
  rewrite IH by (split; [apply Z.div_pos; lia|apply Z.div_lt_upper_bound; lia]). cbn [List.length Z.of_nat]. change (10 ^ Z.of_nat 1) with 10.
  unfold number. cbn [fold_left]. rewrite dval_dig_of by (apply Z.mod_pos_bound; lia). pose proof (Z.div_mod m 10). lia.
Qed.
Lemma strip_spec l : exists k, l = (strip l ++ repeat D0 k)%list.
Proof.
  induction l as [|d l [k IH]]; [exists 0%nat; reflexivity|]. cbn [strip]. destruct (strip l) as [|e r] eqn:E.
  - destruct d; cbn [is_D0]; try (exists k; rewrite IH at 1; reflexivity). exists (S k). rewrite IH at 1. reflexivity.
  - exists k. rewrite IH at 1. reflexivity.
Qed.
Lemma number_zeros k : number (repeat D0 k) = 0.
Proof. induction k as [|k IH]; [reflexivity|]. cbn [repeat]. change (D0 :: repeat D0 k) with ([D0] ++ repeat D0 k)%list. rewrite number_app_split, IH. reflexivity. Qed.
Lemma p10_pos e : (0 < powerRZ 10 e)%R. Proof. apply powerRZ_lt. lra. Qed.
Lemma p10_add a b : powerRZ 10 (a + b) = (powerRZ 10 a * powerRZ 10 b)%R. Proof. apply powerRZ_add. lra. Qed.
Lemma dec_shift m k e : 0 <= k -> dec (m * 10 ^ k) e = dec m (e + k).
Proof. intros H. unfold dec. rewrite mult_IZR, p10_add, (pow10 k H). ring. Qed.
Lemma frac_opt_value (I F : list dig) e : dec (number (I ++ match frac_opt F with Some r => r | None => [] end)) (e - Z.of_nat (List.length (match frac_opt F with Some r => r | None => [] end))) = dec (number (I ++ F)) (e - Z.of_nat (List.length F)).
Proof.
  assert (X : match frac_opt F with Some r => r | None => [] end = strip F) by (unfold frac_opt; destruct (strip F); reflexivity). rewrite X. clear X.
  destruct (strip_spec F) as [k E]. set (r := strip F) in *. rewrite E. rewrite app_assoc, (number_app_split (I ++ r)), number_zeros, repeat_length, Z.add_0_r, app_length, repeat_length, dec_shift by lia. f_equal. lia.
Qed.
Lemma value_pos t : n_sign t = NoSign -> value t = dec (number (n_int t ++ fraction t)) (exponent t - Z.of_nat (List.length (fraction t))).
Proof. intros H. rewrite value_eq. unfold minus. rewrite H. unfold sg. ring. Qed.
Lemma frac_opt_some F : match frac_opt F with Some [] => False | _ => True end.
Proof. unfold frac_opt. destruct (strip F); exact I. Qed.
Lemma exp_digits_ok x : 0 <= x < 1000 -> number (exp_digits x) = x /\ exp_digits x <> [].
Proof.
  intros H. unfold exp_digits. destruct (x <? 100) eqn:E; [apply Z.ltb_lt in E|].
  - split; [apply digs_number; cbn; lia|]. intros C. pose proof (digs_length 2 x) as L. rewrite C in L. discriminate.
  - split; [apply digs_number; cbn; lia|]. intros C. pose proof (digs_length 3 x) as L. rewrite C in L. discriminate.
Qed.
Lemma g19_ok m x : 0 <= m < 10 ^ 19 -> -1000 < x < 1000 -> n_sign (g19 m x) = NoSign /\ well_formed (g19 m x) /\ value (g19 m x) = dec m (x - 18).
Proof.
  intros Hm Hx. assert (Len : List.length (digs 19 m []) = 19%nat) by apply digs_length. assert (Num : number (digs 19 m []) = m) by (apply digs_number; exact Hm).
  assert (FN : forall n, (firstn n (digs 19 m []) ++ skipn n (digs 19 m []))%list = digs 19 m []) by (intros; apply firstn_skipn).
  assert (FL : forall n, (1 <= n)%nat -> firstn n (digs 19 m []) <> []). { intros n Hn C. apply (f_equal (@List.length dig)) in C. rewrite firstn_length, Len in C. cbn in C. lia. }
  unfold g19. set (ds := digs 19 m []) in *. destruct ((-4 <=? x) && (x <? 19)) eqn:C; [apply andb_true_iff in C; destruct C as [C1 C2]; apply Z.leb_le in C1; apply Z.ltb_lt in C2; destruct (0 <=? x) eqn:C3; [apply Z.leb_le in C3|apply Z.leb_gt in C3]|].
  - split; [reflexivity|]. set (j := Z.to_nat (x + 1)). assert (Hj : (1 <= j <= 19)%nat) by (unfold j; lia). split.
    + unfold well_formed. cbn [n_frac n_int n_exp]. split; [|exact I]. pose proof (frac_opt_some (skipn j ds)) as S0. destruct (frac_opt (skipn j ds)) as [[|d r]|]; [destruct S0|exact I|apply FL; lia].
    + rewrite value_pos by reflexivity. unfold fraction, exponent. cbn [n_frac n_int n_exp]. rewrite frac_opt_value, FN, Num, skipn_length, Len. f_equal. unfold j. lia.
  - split; [reflexivity|]. split.
    + unfold well_formed. cbn [n_frac n_int n_exp]. split; [|exact I]. match goal with |- context [frac_opt ?l] => pose proof (frac_opt_some l) as S0; destruct (frac_opt l) as [[|d r]|] end; [destruct S0|exact I|discriminate].
    + rewrite value_pos by reflexivity. unfold fraction, exponent. cbn [n_frac n_int n_exp]. rewrite frac_opt_value. set (j := Z.to_nat (- x - 1)). change ([D0] ++ repeat D0 j ++ ds)%list with (repeat D0 (S j) ++ ds)%list.
      rewrite number_app_split, number_zeros, Num, app_length, repeat_length, Len. cbn [Z.mul Z.add]. f_equal. unfold j. lia.
  - split; [reflexivity|]. destruct (exp_digits_ok (Z.abs x)) as [Ex En]; [lia|]. split.
    + unfold well_formed. cbn [n_frac n_int n_exp]. split; [|exact En]. pose proof (frac_opt_some (skipn 1 ds)) as S0. destruct (frac_opt (skipn 1 ds)) as [[|d r]|]; [destruct S0|exact I|apply FL; lia].
    + rewrite value_pos by reflexivity. unfold fraction, exponent. cbn [n_frac n_int n_exp]. rewrite frac_opt_value, FN, Num, skipn_length, Len, Ex. f_equal. destruct (x <? 0) eqn:E; cbn [signed]; [apply Z.ltb_lt in E|apply Z.ltb_ge in E]; lia.
Qed.
(** the text is that of an integer only for exponents from 0 to 18 *)
Lemma g19_integral m x : integral (g19 m x) -> -4 <= x < 19.
Proof.
  unfold g19, integral. destruct ((-4 <=? x) && (x <? 19)) eqn:C; [apply andb_true_iff in C; destruct C as [C1 C2]; apply Z.leb_le in C1; apply Z.ltb_lt in C2; intros _; lia|]. cbn [n_exp]. intros (_ & E & _). discriminate E.
Qed.

(** ** The 19 digits *)
Section Sci.
  Variables num den : Z.
  Hypothesis (Hn : 0 < num) (Hd : 0 < den).
  Let v : R := (IZR num / IZR den)%R.
  Lemma v_pos : (0 < v)%R. Proof using Hn Hd. apply Rdiv_lt_0_compat; apply IZR_lt; assumption. Qed.
  Lemma ge10_spec k : ge10 num den k = true <-> (powerRZ 10 k <= v)%R.
  Proof using Hn Hd.
    unfold ge10, v. assert (D : (0 < IZR den)%R) by (apply IZR_lt; exact Hd). pose proof (dec_frac 1 k) as E. unfold dec in E. rewrite Rmult_1_l in E. rewrite E.
    assert (P : (0 < IZR (dec_den k))%R) by (apply IZR_lt, dec_den_pos). rewrite Z.leb_le. split.
    - intros H. apply IZR_le in H. rewrite !mult_IZR in H. apply Rmult_le_reg_r with (IZR (dec_den k)); [exact P|]. apply Rmult_le_reg_r with (IZR den); [exact D|].
      replace (IZR (dec_num 1 k) / IZR (dec_den k) * IZR (dec_den k) * IZR den)%R with (IZR (dec_num 1 k) * IZR den)%R by (field; lra).
      replace (IZR num / IZR den * IZR (dec_den k) * IZR den)%R with (IZR num * IZR (dec_den k))%R by (field; lra). exact H.
    - intros H. apply le_IZR. rewrite !mult_IZR. replace (IZR (dec_num 1 k) * IZR den)%R with (IZR (dec_num 1 k) / IZR (dec_den k) * (IZR (dec_den k) * IZR den))%R by (field; lra).
      replace (IZR num * IZR (dec_den k))%R with (IZR num / IZR den * (IZR (dec_den k) * IZR den))%R by (field; lra). apply Rmult_le_compat_r; [apply Rmult_le_pos; lra|exact H].
  Qed.
  Lemma top10_spec n : forall k, ge10 num den (k - Z.of_nat n) = true -> ge10 num den (k + 1) = false ->
    let r := top10 n num den k in ge10 num den r = true /\ ge10 num den (r + 1) = false /\ k - Z.of_nat n <= r <= k.
  Proof using.
    induction n as [|n IH]; intros k A B; cbn [top10].
    - rewrite Z.sub_0_r in A. repeat split; auto; lia.
    - destruct (ge10 num den k) eqn:E; [repeat split; auto; lia|]. destruct (IH (k - 1)) as (X & Y & Z0); [rewrite <- A; f_equal; lia|replace (k - 1 + 1) with k by lia; exact E|]. repeat split; auto; lia.
  Qed.
  Lemma nearest_even_spec a b : 0 < b -> (Rabs (IZR (nearest_even a b) - IZR a / IZR b) <= 1 / 2)%R /\ (forall q, a = q * b -> nearest_even a b = q).
  Proof using.
    intros Hb. unfold nearest_even. pose proof (Z.div_mod a b ltac:(lia)) as E. pose proof (Z.mod_pos_bound a b Hb) as M. set (q := a / b) in *. set (r := a mod b) in *.
    assert (Y : (IZR a / IZR b = IZR q + IZR r / IZR b)%R). { rewrite E, plus_IZR, mult_IZR. field. apply IZR_neq. lia. }
    assert (P : (0 < IZR b)%R) by (apply IZR_lt; exact Hb).
    assert (F : forall z, (IZR z / IZR b * IZR b = IZR z)%R) by (intros; field; lra).
    assert (L : 2 * r <= b -> (IZR r / IZR b <= 1 / 2)%R). { intros H. apply IZR_le in H. rewrite mult_IZR in H. apply Rmult_le_reg_r with (IZR b); [exact P|]. rewrite F. lra. }
    assert (G : b <= 2 * r -> (1 / 2 <= IZR r / IZR b)%R). { intros H. apply IZR_le in H. rewrite mult_IZR in H. apply Rmult_le_reg_r with (IZR b); [exact P|]. rewrite F. lra. }
    assert (Z0 : (0 <= IZR r / IZR b)%R) by (apply Rmult_le_pos; [apply IZR_le; lia|left; apply Rinv_0_lt_compat; exact P]).
    assert (Z1 : (IZR r / IZR b <= 1)%R). { apply Rmult_le_reg_r with (IZR b); [exact P|]. rewrite F, Rmult_1_l. apply IZR_le. lia. }
    split.
    - rewrite Y. destruct (2 * r <? b) eqn:C1; [apply Z.ltb_lt in C1; specialize (L ltac:(lia)); apply Rabs_le; lra|apply Z.ltb_ge in C1; specialize (G C1)].
      destruct (b <? 2 * r) eqn:C2; [rewrite plus_IZR; apply Rabs_le; lra|apply Z.ltb_ge in C2; specialize (L C2)]. destruct (Z.even q); [|rewrite plus_IZR]; apply Rabs_le; lra.
    - intros q0 Eq. assert (r = 0) by (unfold r; rewrite Eq; apply Z.mod_mul; lia). assert (q = q0) by (unfold q; rewrite Eq; apply Z.div_mul; lia).
      rewrite H. replace (2 * 0 <? b) with true by (symmetry; apply Z.ltb_lt; lia). exact H0.
  Qed.
  Theorem sci19_spec : ge10 num den (-331) = true -> ge10 num den 310 = false ->
    let (m, x) := sci19 num den in 10 ^ 18 <= m < 10 ^ 19 /\ -332 < x < 312 /\ (Rabs (dec m (x - 18) - v) <= powerRZ 10 (-18) / 2 * v)%R /\
      ((powerRZ 10 19 <= v)%R -> 19 <= x) /\ (forall n k, 0 <= n < 10 ^ 19 -> v = dec n k -> dec m (x - 18) = v).
  Proof using Hn Hd.
    intros A B. unfold sci19. destruct (top10_spec 640 309) as (T1 & T2 & T3); [rewrite <- A; reflexivity|exact B|]. set (x := top10 640 num den 309) in *. cbn [Z.of_nat] in T3.
    assert (T3' : -331 <= x <= 309). { revert T3. clear. change (Z.of_nat 640) with 640. lia. } clear T3.
    apply ge10_spec in T1. assert (T2' : (v < powerRZ 10 (x + 1))%R). { apply Rnot_le_lt. intros C. apply ge10_spec in C. congruence. } clear T2.
    set (a := num * dec_num 1 (18 - x)). set (b := den * dec_den (18 - x)). assert (Hb : 0 < b) by (apply Z.mul_pos_pos; [exact Hd|apply dec_den_pos]).
    assert (Y : (IZR a / IZR b = v * powerRZ 10 (18 - x))%R).
    { unfold a, b, v. rewrite !mult_IZR. pose proof (dec_frac 1 (18 - x)) as E. unfold dec in E. rewrite Rmult_1_l in E. rewrite E. field. split; apply IZR_neq; [pose proof (dec_den_pos (18 - x)); lia|lia]. }
    destruct (nearest_even_spec a b Hb) as [Ne Nx]. rewrite Y in Ne. set (m := nearest_even a b) in *.
    assert (P : (0 < powerRZ 10 (18 - x))%R) by apply p10_pos.
    assert (Lo : (IZR (10 ^ 18) <= v * powerRZ 10 (18 - x))%R). { rewrite <- pow10 by lia. replace 18 with (x + (18 - x)) at 1 by lia. rewrite p10_add. apply Rmult_le_compat_r; lra. }
    assert (Hi : (v * powerRZ 10 (18 - x) < IZR (10 ^ 19))%R). { rewrite <- pow10 by lia. replace 19 with (x + 1 + (18 - x)) at 1 by lia. rewrite p10_add. apply Rmult_lt_compat_r; lra. }
    apply Rabs_le_inv in Ne.
    assert (M1 : 10 ^ 18 <= m). { apply Z.lt_succ_r, lt_IZR. rewrite succ_IZR. lra. }
    assert (M2 : m <= 10 ^ 19). { apply Z.lt_succ_r, lt_IZR. rewrite succ_IZR. lra. }
    assert (Err : (Rabs (dec m (x - 18) - v) <= powerRZ 10 (-18) / 2 * v)%R).
    { assert (Q : (powerRZ 10 (18 - x) * powerRZ 10 (x - 18) = 1)%R) by (rewrite <- p10_add; replace (18 - x + (x - 18)) with 0 by lia; reflexivity).
      assert (Q' : (0 < powerRZ 10 (x - 18))%R) by apply p10_pos.
      unfold dec. replace (IZR m * powerRZ 10 (x - 18) - v)%R with ((IZR m - v * powerRZ 10 (18 - x)) * powerRZ 10 (x - 18))%R by (rewrite Rmult_minus_distr_r, Rmult_assoc, Q; ring).
      rewrite Rabs_mult, (Rabs_right (powerRZ 10 (x - 18))) by lra. apply Rle_trans with (1 / 2 * powerRZ 10 (x - 18))%R; [apply Rmult_le_compat_r; [lra|apply Rabs_le; lra]|].
      replace (x - 18) with (-18 + x) by lia. rewrite p10_add. pose proof (p10_pos (-18)). nra. }
    assert (Big : (powerRZ 10 19 <= v)%R -> 19 <= x). { intros H. destruct (Z_le_gt_dec 19 x); [assumption|]. exfalso. assert (powerRZ 10 (x + 1) <= powerRZ 10 19)%R; [|lra].
      replace 19 with (x + 1 + (18 - x)) at 1 by lia. rewrite (p10_add (x + 1) (18 - x)). rewrite (pow10 (18 - x)) by lia. pose proof (p10_pos (x + 1)). assert (1 <= IZR (10 ^ (18 - x)))%R by (apply (IZR_le 1); pose proof (Z.pow_pos_nonneg 10 (18 - x)); lia). nra. }
    assert (Ex : forall n k, 0 <= n < 10 ^ 19 -> v = dec n k -> dec m (x - 18) = v).
    { intros n k Nk Ev. assert (K : 0 <= k + (18 - x)).
      { destruct (Z_le_gt_dec 0 (k + (18 - x))); [assumption|]. exfalso. assert (C : (v * powerRZ 10 (18 - x) < IZR (10 ^ 18))%R); [|lra]. rewrite Ev. unfold dec. rewrite Rmult_assoc, <- p10_add.
        assert (D : (powerRZ 10 (k + (18 - x)) <= powerRZ 10 (-1))%R). { assert (Q1 : powerRZ 10 (-1) = (powerRZ 10 (k + (18 - x)) * powerRZ 10 (-1 - (k + (18 - x))))%R) by (rewrite <- p10_add; f_equal; lia). rewrite Q1. rewrite (pow10 (-1 - (k + (18 - x)))) by lia. pose proof (p10_pos (k + (18 - x))).
          assert (1 <= IZR (10 ^ (-1 - (k + (18 - x)))))%R by (apply (IZR_le 1); pose proof (Z.pow_pos_nonneg 10 (-1 - (k + (18 - x)))); lia). nra. }
        change (powerRZ 10 (-1)) with (/ (10 * 1))%R in D. assert (N : (IZR n < IZR (10 ^ 19))%R) by (apply IZR_lt; lia). assert (N0 : (0 <= IZR n)%R) by (apply IZR_le; lia).
        apply Rle_lt_trans with (IZR n * / (10 * 1))%R; [apply Rmult_le_compat_l; lra|]. change (10 ^ 19) with (10 * 10 ^ 18) in N. rewrite mult_IZR in N. lra. }
      assert (Ea : a = n * 10 ^ (k + (18 - x)) * b).
      { apply eq_IZR. rewrite !mult_IZR. rewrite <- (pow10 _ K). assert (Eab : (IZR a = v * powerRZ 10 (18 - x) * IZR b)%R) by (rewrite <- Y; field; apply IZR_neq; lia). rewrite Eab, Ev. unfold dec. rewrite p10_add. ring. }
      pose proof (Nx _ Ea) as Em. rewrite Em, dec_shift by exact K. rewrite Ev. f_equal. lia. }
    destruct (m =? 10 ^ 19) eqn:E19.
    - apply Z.eqb_eq in E19. assert (Same : dec (10 ^ 18) (x + 1 - 18) = dec m (x - 18)). { rewrite E19. change (10 ^ 19) with (10 ^ 18 * 10 ^ 1). rewrite dec_shift by lia. f_equal. lia. }
      rewrite Same. split; [lia|]. split; [lia|]. split; [exact Err|]. split; [intros H; specialize (Big H); lia|exact Ex].
    - apply Z.eqb_neq in E19. split; [lia|]. split; [lia|]. split; [exact Err|]. split; [exact Big|exact Ex].
  Qed.
End Sci.
