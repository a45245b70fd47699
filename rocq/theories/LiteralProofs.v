(** Reading numeric literals *)
From Coq Require Import ZArith Reals Lra Lia List Bool Ascii String Psatz.
From Flocq Require Import Core.Core IEEE754.BinarySingleNaN Calc.Bracket.
From Verif Require Import Dbl DblProofs Interval IntervalProofs Syntax MathConv MathConvProofs Literal SpecLiteral.
Import ListNotations.
Local Open Scope Z_scope.

(** ** Text *)
Definition nodigit (s : string) : Prop := match s with String c _ => digit c = None | EmptyString => True end.
Lemma digit_show d : digit (dshow d) = Some (dval d). Proof. destruct d; reflexivity. Qed.
Definition num_from (v : Z) (ds : list dig) : Z := fold_left (fun v d => 10 * v + dval d)%Z ds v.
Lemma app_assoc_s a b c : append (append a b) c = append a (append b c).
Proof. induction a as [|x a IH]; cbn; [reflexivity|now rewrite IH]. Qed.
Lemma app_nil_s a : append a EmptyString = a.
Proof. induction a as [|x a IH]; cbn; [reflexivity|now rewrite IH]. Qed.
Lemma take_digits_show ds : forall r v k, nodigit r -> take_digits (append (show_digits ds) r) v k = (num_from v ds, k + Z.of_nat (List.length ds), r).
Proof.
  induction ds as [|d ds IH]; intros r v k Hr.
  - cbn [show_digits fold_right append num_from fold_left List.length]. rewrite Z.add_0_r. destruct r as [|c r]; [reflexivity|]. cbn [take_digits]. cbn in Hr. rewrite Hr. reflexivity.
  - cbn [show_digits fold_right append take_digits]. rewrite digit_show. fold (show_digits ds). rewrite IH by exact Hr. unfold num_from. cbn [fold_left List.length]. f_equal. f_equal. lia.
Qed.
Definition nosign (s : string) : Prop := match s with String c _ => Ascii.eqb c "-" = false /\ Ascii.eqb c "+" = false | EmptyString => True end.
Lemma take_sign_show s r : nosign r -> take_sign (append (show_sign s) r) = (match s with Minus => true | _ => false end, r).
Proof.
  intros H. destruct s; [|reflexivity|reflexivity]. cbn [show_sign append]. destruct r as [|c r]; [reflexivity|]. cbn [take_sign]. destruct H as [-> ->]. reflexivity.
Qed.
Lemma show_digits_nosign ds r : nosign r -> nosign (append (show_digits ds) r).
Proof. intros H. destruct ds as [|[] ds]; try exact H; split; reflexivity. Qed.
Definition exp_text (t : numeral) : string :=
  match n_exp t with None => EmptyString | Some (upper, s, ds) => append (if upper then "E" else "e")%string (append (show_sign s) (show_digits ds)) end.
Definition frac_text (t : numeral) : string := match n_frac t with None => EmptyString | Some ds => append "."%string (show_digits ds) end.
Lemma show_eq t : show t = append (show_sign (n_sign t)) (append (show_digits (n_int t)) (append (frac_text t) (exp_text t))).
Proof. reflexivity. Qed.
Lemma number_app a b : number (a ++ b) = num_from (number a) b.
Proof. unfold number, num_from. apply fold_left_app. Qed.
Lemma body_nosign t : nosign (append (show_digits (n_int t)) (append (frac_text t) (exp_text t))).
Proof.
  apply show_digits_nosign. unfold frac_text, exp_text. destruct (n_frac t) as [ds|]; [split; reflexivity|]. destruct (n_exp t) as [[[u s] es]|]; [|exact I]. destruct u; split; reflexivity.
Qed.
Lemma reads_show t : well_formed t ->
  strtod_reads (show t) = Some (match n_sign t with Minus => true | _ => false end, number (n_int t ++ fraction t), exponent t - Z.of_nat (List.length (fraction t))).
Proof.
  intros [W1 W2]. unfold strtod_reads. rewrite show_eq, take_sign_show by apply body_nosign.
  assert (N1 : nodigit (append (frac_text t) (exp_text t))).
  { unfold frac_text, exp_text. destruct (n_frac t); [reflexivity|]. destruct (n_exp t) as [[[u s] es]|]; [|exact I]. destruct u; reflexivity. }
  assert (N2 : nodigit (exp_text t)).
  { unfold exp_text. destruct (n_exp t) as [[[u s] es]|]; [|exact I]. destruct u; reflexivity. }
  rewrite take_digits_show by exact N1. change (num_from 0 (n_int t)) with (number (n_int t)).
  assert (E : match append (frac_text t) (exp_text t) with
              | String c r => if Ascii.eqb c "." then take_digits r (number (n_int t)) 0 else (number (n_int t), 0, append (frac_text t) (exp_text t))
              | EmptyString => (number (n_int t), 0, append (frac_text t) (exp_text t)) end = (number (n_int t ++ fraction t), Z.of_nat (List.length (fraction t)), exp_text t)).
  { unfold frac_text, fraction in *. destruct (n_frac t) as [ds|].
    - cbn [append]. change (Ascii.eqb "." ".") with true. cbv iota. rewrite take_digits_show by exact N2. rewrite number_app. reflexivity.
    - cbn [append]. rewrite app_nil_r. cbn [List.length Z.of_nat]. unfold exp_text. destruct (n_exp t) as [[[u s] es]|]; [|reflexivity]. destruct u; reflexivity. }
  rewrite E. cbv beta iota.
  assert (K : (0 + Z.of_nat (List.length (n_int t)) + Z.of_nat (List.length (fraction t)) =? 0) = false).
  { apply Z.eqb_neq. unfold fraction. destruct (n_frac t) as [[|d ds]|]; [destruct W1 as [W1 _]| |]; (destruct (n_int t); cbn [List.length]; try congruence; lia). }
  rewrite K.
  assert (X : match exp_text t with
     | String c r => if Ascii.eqb c "e" || Ascii.eqb c "E" then let (sg', r') := take_sign r in let '(x, k, _) := take_digits r' 0 0 in if k =? 0 then 0 else if sg' then - x else x else 0
     | EmptyString => 0 end = exponent t).
  { unfold exp_text, exponent. destruct (n_exp t) as [[[u s] es]|]; [|reflexivity].
    assert (A : forall c, (Ascii.eqb c "e" || Ascii.eqb c "E")%bool = true -> (match append (String c EmptyString) (append (show_sign s) (show_digits es)) with
     | String c r => if (Ascii.eqb c "e" || Ascii.eqb c "E")%bool then let (sg', r') := take_sign r in let '(x, k, _) := take_digits r' 0 0 in if k =? 0 then 0 else if sg' then - x else x else 0
     | EmptyString => 0 end) = signed s (number es)).
    { intros c Hc. cbn [append]. rewrite Hc. rewrite take_sign_show.
      2: { rewrite <- (app_nil_s (show_digits es)). apply show_digits_nosign. exact I. }
      rewrite <- (app_nil_s (show_digits es)), take_digits_show by exact I.
      replace (0 + Z.of_nat (List.length es) =? 0) with false by (symmetry; apply Z.eqb_neq; destruct es; cbn [List.length]; [congruence|lia]).
      destruct s; reflexivity. }
    destruct u; apply A; reflexivity. }
  rewrite X. reflexivity.
Qed.

(** ** Rounding *)
Definition dec (m e : Z) : R := (IZR m * powerRZ 10 e)%R.
Lemma dec_den_pos e : 0 < dec_den e.
Proof. unfold dec_den. destruct (0 <=? e) eqn:E; [lia|]. apply Z.leb_gt in E. apply Z.pow_pos_nonneg; lia. Qed.
Lemma pow10 e : 0 <= e -> powerRZ 10 e = IZR (10 ^ e).
Proof.
  intros H. destruct e as [|p|p]; [reflexivity| |lia]. symmetry. exact (Zpower_pos_powerRZ 10 p).
Qed.
Lemma dec_frac m e : dec m e = (IZR (dec_num m e) / IZR (dec_den e))%R.
Proof.
  unfold dec, dec_num, dec_den. destruct (0 <=? e) eqn:E.
  - apply Z.leb_le in E. rewrite mult_IZR, (pow10 e E). unfold Rdiv. rewrite Rinv_1. ring.
  - apply Z.leb_gt in E. rewrite <- pow10 by lia. rewrite powerRZ_neg'. unfold Rdiv. rewrite Rinv_inv. reflexivity.
Qed.
Definition sg (s : bool) : R := if s then (-1)%R else 1%R.
Notation fexp64 := (SpecFloat.fexp prec64 emax64).
Lemma of_SF_eq z (H : SpecFloat.valid_binary prec64 emax64 z = true) : of_SF z = SF2B z H.
Proof. unfold of_SF. destruct (Bool.bool_dec _ _) as [H'|N]; [|contradiction]. f_equal. apply Eqdep_dec.UIP_dec. apply Bool.bool_dec. Qed.
Lemma pow2_1074 : IZR (2 ^ 1074) = bpow radix2 1074.
Proof. exact (IZR_Zpower radix2 1074 ltac:(lia)). Qed.
Lemma dec_pos m e : 0 < m -> (0 < dec m e)%R.
Proof. intros H. unfold dec. apply Rmult_lt_0_compat; [now apply IZR_lt|apply powerRZ_lt; lra]. Qed.
Lemma round_dec_ok md s m e : 0 < m -> let x := (sg s * dec m e)%R in
  if Rlt_bool (Rabs (round radix2 fexp64 (round_mode md) x)) (bpow radix2 emax64)
  then B2R (round_dec md s m e) = round radix2 fexp64 (round_mode md) x /\ is_finite (round_dec md s m e) = true
  else B2SF (round_dec md s m e) = binary_overflow prec64 emax64 md s.
Proof.
  intros Hm x. pose proof (dec_pos m e Hm) as Hp. unfold round_dec. replace (m =? 0) with false by (symmetry; apply Z.eqb_neq; lia).
  assert (Hx : x <> 0%R) by (unfold x, sg; destruct s; lra).
  assert (Hs : Rlt_bool x 0 = s) by (unfold x, sg; destruct s; [apply Rlt_bool_true|apply Rlt_bool_false]; lra).
  assert (Ha : Rabs x = dec m e) by (unfold x, sg; destruct s; [rewrite Rabs_left by lra; lra|rewrite Rabs_pos_eq by lra; lra]).
  set (n := dec_num m e * 2 ^ 1074). set (d := dec_den e). set (l := if n mod d =? 0 then SpecFloat.loc_Exact else SpecFloat.loc_Inexact (2 * (n mod d) ?= d)).
  pose proof (dec_den_pos e) as Hd. fold d in Hd.
  assert (B : (IZR n = dec m e * IZR d * bpow radix2 1074)%R).
  { unfold n, d. rewrite mult_IZR, dec_frac, pow2_1074. field. apply IZR_neq. unfold d in Hd. lia. }
  assert (Bp : (bpow radix2 1074 * bpow radix2 (-1074) = 1)%R) by (rewrite <- bpow_plus; reflexivity).
  pose proof (bpow_gt_0 radix2 (-1074)) as Hb.
  assert (E : (dec m e = IZR n / IZR d * bpow radix2 (-1074))%R).
  { rewrite B. unfold Rdiv. transitivity (dec m e * (IZR d * / IZR d) * (bpow radix2 1074 * bpow radix2 (-1074)))%R; [|ring]. rewrite Bp, Rinv_r by (apply IZR_neq; lia). ring. }
  assert (Dv : (IZR n / IZR d = IZR (n / d) + IZR (n mod d) / IZR d)%R).
  { rewrite (Z.div_mod n d) at 1 by lia. rewrite plus_IZR, mult_IZR. field. apply IZR_neq. lia. }
  pose proof (Z.mod_pos_bound n d Hd) as [M0 M1].
  assert (Hdr : (0 < IZR d)%R) by (apply IZR_lt; lia).
  assert (I : inbetween_float radix2 (n / d) (-1074) (Rabs x) l).
  { rewrite Ha. unfold inbetween_float, l, F2R. cbn [Fnum Fexp]. destruct (n mod d =? 0) eqn:Z0.
    - apply Z.eqb_eq in Z0. constructor. rewrite E, Dv, Z0. unfold Rdiv. ring.
    - apply Z.eqb_neq in Z0. assert (F0 : (0 < IZR (n mod d) / IZR d)%R) by (apply Rdiv_lt_0_compat; [apply IZR_lt; lia|exact Hdr]).
      assert (F1 : (IZR (n mod d) / IZR d < 1)%R) by (apply (Rmult_lt_reg_r (IZR d)); [exact Hdr|]; unfold Rdiv; rewrite Rmult_assoc, Rinv_l by lra; rewrite Rmult_1_r, Rmult_1_l; apply IZR_lt; lia).
      constructor.
      + rewrite E, Dv, plus_IZR. split; apply Rmult_lt_compat_r; lra.
      + rewrite E, Dv, plus_IZR.
        replace ((IZR (n / d) * bpow radix2 (-1074) + (IZR (n / d) + 1) * bpow radix2 (-1074)) / 2)%R with ((IZR (n / d) + / 2) * bpow radix2 (-1074))%R by field.
        rewrite Rcompare_mult_r by exact Hb. rewrite Rcompare_plus_l.
        replace (IZR (n mod d) / IZR d)%R with (IZR (2 * (n mod d)) * / (2 * IZR d))%R by (rewrite mult_IZR; field; lra).
        replace (/ 2)%R with (IZR d * / (2 * IZR d))%R by (field; lra).
        rewrite Rcompare_mult_r by (apply Rinv_0_lt_compat; lra). apply Rcompare_IZR. }
  assert (C : -1074 <= cexp radix2 fexp64 x) by (unfold cexp, SpecFloat.fexp, SpecFloat.emin, prec64, emax64; lia).
  pose proof (binary_round_aux_correct' prec64 emax64 _ _ md x (n / d) (-1074) l Hx I C) as [V R]. rewrite Hs in V, R.
  rewrite (of_SF_eq _ V). cbv zeta in R. destruct (Rlt_bool (Rabs _) _).
  - destruct R as (R1 & R2 & _). rewrite B2R_SF2B, is_finite_SF2B. split; assumption.
  - rewrite B2SF_SF2B. exact R.
Qed.
Notation rnd md := (round radix2 fexp64 (round_mode md)).
Lemma digits_nonneg ds : forall v, 0 <= v -> 0 <= num_from v ds.
Proof. induction ds as [|d ds IH]; intros v H; [exact H|]. apply IH. destruct d; cbn [dval]; lia. Qed.
Definition minus (t : numeral) : bool := match n_sign t with Minus => true | _ => false end.
Lemma value_eq t : value t = (sg (minus t) * dec (number (n_int t ++ fraction t)) (exponent t - Z.of_nat (List.length (fraction t))))%R.
Proof. unfold value, dec, minus, sg. destruct (n_sign t); cbn [signed]; rewrite ?opp_IZR; ring. Qed.
Section Under.
  Variable under : mode -> string -> bool.
  Lemma stod_ok md t c : md = mode_UP \/ md = mode_NE -> well_formed t -> stod under md (show t) = Some c -> is_finite c = true /\ B2R c = rnd md (value t).
  Proof.
    intros MD W. unfold stod. rewrite (reads_show t W). fold (minus t). rewrite value_eq. set (m := number _). set (e := (_ - _)%Z).
    assert (Hm : 0 <= m) by (apply digits_nonneg; lia).
    destruct (is_finite (round_dec md (minus t) m e)) eqn:F; cbn [negb orb]; [|discriminate].
    destruct (_ <=? _) eqn:L; [discriminate|]. destruct (_ && _ && _)%bool; [discriminate|]. intros H. assert (E : c = round_dec md (minus t) m e) by congruence. subst c. split; [exact F|].
    destruct (Z.eq_dec m 0) as [->|Z0].
    - unfold round_dec. cbn [Z.eqb B2R]. unfold dec. rewrite Rmult_0_l, Rmult_0_r, round_0; [reflexivity|apply valid_rnd_round_mode].
    - pose proof (round_dec_ok md (minus t) m e ltac:(lia)) as X. cbv zeta in X. destruct (Rlt_bool _ _) eqn:RL; [apply X|].
      exfalso. rewrite <- is_finite_SF_B2SF, X in F. unfold binary_overflow in F. destruct (overflow_to_inf md (minus t)) eqn:O; [discriminate|]. clear F X.
      destruct MD as [->| ->]; [|discriminate]. unfold overflow_to_inf in O. destruct (minus t); [|discriminate]. cbn [sg] in RL.
      pose proof (dec_pos m e ltac:(lia)) as Hp.
      assert (G : (rnd mode_UP (-1 * dec m e) <= 0)%R).
      { rewrite <- (round_0 radix2 fexp64 (round_mode mode_UP)). apply round_le; [apply fexp_correct; reflexivity|apply valid_rnd_round_mode|lra]. }
      assert (G2 : (-1 * dec m e <= rnd mode_UP (-1 * dec m e))%R) by (apply round_UP_pt; apply fexp_correct; reflexivity).
      assert (RL' : (bpow radix2 emax64 <= Rabs (rnd mode_UP (-1 * dec m e)))%R) by (destruct (Rlt_bool_spec (Rabs (rnd mode_UP (-1 * dec m e))) (bpow radix2 emax64)); [discriminate|assumption]).
      rewrite Rabs_left1 in RL' by exact G.
      apply Z.leb_gt in L. apply IZR_lt in L. rewrite mult_IZR in L. rewrite dec_frac in *. set (nn := IZR (dec_num m e)) in *. pose proof (IZR_lt _ _ (dec_den_pos e)) as Hd. set (dd := IZR (dec_den e)) in *.
      assert (P : IZR (2 ^ 1024) = bpow radix2 emax64) by exact (IZR_Zpower radix2 1024 ltac:(lia)). rewrite P in L.
      assert (Y : (bpow radix2 emax64 <= nn / dd)%R) by lra. apply (Rmult_le_compat_r dd) in Y; [|lra]. unfold Rdiv in Y. rewrite Rmult_assoc, Rinv_l, Rmult_1_r in Y by lra. lra.
  Qed.
  Definition opp_sign (t : numeral) : numeral := {| n_sign := match n_sign t with Minus => NoSign | _ => Minus end; n_int := n_int t; n_frac := n_frac t; n_exp := n_exp t |}.
  Lemma opp_value t : value (opp_sign t) = (- value t)%R.
  Proof. rewrite !value_eq. unfold minus, opp_sign, fraction, exponent. cbn [n_sign n_int n_frac n_exp]. destruct (n_sign t); cbn [sg]; ring. Qed.
  Lemma show_cases t : match n_sign t with
    | Minus => show t = String "-" (show (opp_sign t))
    | NoSign => show (opp_sign t) = String "-" (show t) /\ match show t with String c _ => Ascii.eqb c "-" = false | EmptyString => True end
    | Plus => exists r, show t = String "+" r end.
  Proof.
    destruct (n_sign t) eqn:S.
    - split.
      + rewrite !show_eq. unfold opp_sign, frac_text, exp_text. cbn [n_sign n_int n_frac n_exp]. rewrite S. reflexivity.
      + pose proof (body_nosign t) as B. rewrite show_eq, S. cbn [show_sign append]. destruct (append _ _); [exact I|apply B].
    - rewrite show_eq, S. eexists. reflexivity.
    - rewrite !show_eq. unfold opp_sign, frac_text, exp_text. cbn [n_sign n_int n_frac n_exp]. rewrite S. reflexivity.
  Qed.
  Lemma plus_fails md r : stod under md (String "-" (String "+" r)) = None.
  Proof. reflexivity. Qed.
  Lemma interval_ok t lb ub : well_formed t -> string_to_interval under (show t) = Some (lb, ub) ->
    is_finite lb = true /\ is_finite ub = true /\ B2R lb = round radix2 fexp64 Zfloor (value t) /\ B2R ub = round radix2 fexp64 Zceil (value t).
  Proof.
    intros W. unfold string_to_interval. destruct (stod under mode_UP (show t)) as [u|] eqn:U; [|discriminate]. apply (stod_ok mode_UP t u (or_introl eq_refl) W) in U. destruct U as [U1 U2].
    assert (W' : well_formed (opp_sign t)) by exact W.
    assert (K : forall l, stod under mode_UP (show (opp_sign t)) = Some l -> is_finite (Bopp l) = true /\ B2R (Bopp l) = round radix2 fexp64 Zfloor (value t)).
    { intros l Hl. apply (stod_ok mode_UP _ l (or_introl eq_refl) W') in Hl. destruct Hl as [L1 L2]. rewrite is_finite_Bopp, B2R_Bopp, L2, opp_value. split; [exact L1|]. cbn [round_mode]. rewrite round_UP_opp. ring. }
    pose proof (show_cases t) as C.
    assert (G : forall o : option dbl, o = (match show t with String c r => if Ascii.eqb c "-" then stod under mode_UP r else stod under mode_UP (append "-" (show t)) | EmptyString => stod under mode_UP (append "-" (show t)) end) ->
       o = match n_sign t with Plus => None | _ => stod under mode_UP (show (opp_sign t)) end).
    { intros o ->. destruct (n_sign t).
      - destruct C as [C1 C2]. rewrite C1. destruct (show t) as [|c r]; [reflexivity|]. rewrite C2. reflexivity.
      - destruct C as [r C]. rewrite C. reflexivity.
      - rewrite C. reflexivity. }
    specialize (G _ eq_refl).
    destruct (match show t with String c r => _ | EmptyString => _ end) as [l|]; [|discriminate]. intros H. assert (E1 : lb = Bopp l) by congruence. assert (E2 : ub = u) by congruence. subst lb ub.
    symmetry in G. assert (Gl : stod under mode_UP (show (opp_sign t)) = Some l) by (destruct (n_sign t); congruence). apply K in Gl. destruct Gl as [G1 G2]. auto.
  Qed.
End Under.

(** ** The literal *)
#[local] Instance vexp64 : Valid_exp fexp64 := fexp_correct prec64 emax64 _.
Lemma fmt (d : dbl) : generic_format radix2 fexp64 (B2R d).
Proof. apply generic_format_B2R. Qed.
Lemma diam_zero lb ub : is_finite lb = true -> is_finite ub = true -> (B2R lb <= B2R ub)%R -> deq (i_diam (IV lb ub)) dzero = true <-> B2R lb = B2R ub.
Proof.
  intros F1 F2 L. cbn [i_diam]. pose proof (Bminus_correct prec64 emax64 _ _ mode_UP ub lb F2 F1) as C.
  assert (K : (B2R ub - B2R lb <= rnd mode_UP (B2R ub - B2R lb))%R) by (apply round_UP_pt; exact vexp64).
  destruct (Rlt_bool_spec (Rabs (rnd mode_UP (B2R ub - B2R lb))) (bpow radix2 emax64)) as [O|O].
  - destruct C as (C1 & C2 & _). assert (N : is_nan (Bminus mode_UP ub lb) = false) by (destruct (Bminus mode_UP ub lb); (reflexivity || discriminate)).
    rewrite (deq_spec _ dzero N eq_refl).
    assert (D : d2e (Bminus mode_UP ub lb) = Fin (B2R (Bminus mode_UP ub lb))) by (destruct (Bminus mode_UP ub lb); (reflexivity || discriminate)). rewrite D. cbn [d2e dzero B2R]. rewrite C1. split.
    + intros E. assert (E' : rnd mode_UP (B2R ub - B2R lb) = 0%R) by congruence. lra.
    + intros E. rewrite E, Rminus_diag_eq by reflexivity. rewrite round_0; [reflexivity|apply valid_rnd_round_mode].
  - destruct C as [C _]. split.
    + intros E. exfalso. unfold binary_overflow in C. destruct (Bminus mode_UP ub lb) as [s|s| |s m e H]; try discriminate E; try (destruct s; discriminate E); cbn in C; destruct (Bsign ub); discriminate C.
    + intros E. exfalso. rewrite E, Rminus_diag_eq in O by reflexivity. rewrite round_0 in O by apply valid_rnd_round_mode. rewrite Rabs_R0 in O. pose proof (bpow_gt_0 radix2 emax64). lra.
Qed.
Section Read.
  Variables (under : mode -> string -> bool) (mid : dbl -> dbl -> dbl).
  Hypothesis HM : mid_ok mid.
  Lemma double_ok t e : well_formed t -> read_double under mid (show t) = Some e -> stands_for e (value t).
  Proof.
    intros W. unfold read_double. destruct (string_to_interval under (show t)) as [[lb ub]|] eqn:I; [|discriminate]. apply (interval_ok under t lb ub W) in I. destruct I as (F1 & F2 & L & U).
    destruct (stod under mode_NE (show t)) as [p|] eqn:P; [|discriminate]. apply (stod_ok under mode_NE t p (or_intror eq_refl) W) in P. destruct P as [P1 P2].
    set (x := value t) in *.
    destruct (round_DN_pt radix2 fexp64 x) as (DF & DL & DM). destruct (round_UP_pt radix2 fexp64 x) as (UF & UL & UM). rewrite <- L in DF, DL, DM. rewrite <- U in UF, UL, UM.
    intros H. assert (E : e = if deq (i_diam (IV lb ub)) dzero then EConst (mid lb ub) else EReal lb ub (deq lb p)) by congruence. subst e. clear H.
    pose proof (diam_zero lb ub F1 F2 (Rle_trans _ _ _ DL UL)) as Z.
    assert (Nl : is_nan lb = false) by (destruct lb; (reflexivity || discriminate)). assert (Nu : is_nan ub = false) by (destruct ub; (reflexivity || discriminate)). assert (Np : is_nan p = false) by (destruct p; (reflexivity || discriminate)).
    assert (FE : forall d : dbl, is_finite d = true -> d2e d = Fin (B2R d)) by (intros [] ?; (reflexivity || discriminate)).
    destruct (deq (i_diam (IV lb ub)) dzero).
    - left. exists (mid lb ub). split; [reflexivity|]. assert (EQ : B2R lb = B2R ub) by now apply Z.
      assert (OK : i_ok (IV lb ub)).
      { split; [apply dle_spec; auto; rewrite !FE by assumption; cbn; lra|]. split; [destruct lb as [ | | |[]]; (reflexivity || discriminate)|destruct ub as [ | | |[]]; (reflexivity || discriminate)]. }
      destruct (HM lb ub OK) as (M1 & M2 & M3). split; [exact M1|].
      assert (Nm : is_nan (mid lb ub) = false) by (destruct (mid lb ub); (reflexivity || discriminate)).
      apply dle_spec in M2; auto. apply dle_spec in M3; auto. rewrite !FE in M2, M3 by assumption. cbn in M2, M3. lra.
    - right. assert (NE : B2R lb <> B2R ub) by (intros C; apply Z in C; discriminate).
      exists lb, ub, (deq lb p). split; [reflexivity|]. split; [exact F1|]. split; [exact F2|].
      assert (FX : ~ generic_format radix2 fexp64 x).
      { intros C. apply NE. rewrite L, U, !round_generic; auto; apply valid_rnd_DN || apply valid_rnd_UP. }
      split; [|split].
      + split; [destruct (Rle_lt_or_eq_dec _ _ DL) as [K|K]; [exact K|exfalso; apply FX; rewrite <- K; apply fmt]|destruct (Rle_lt_or_eq_dec _ _ UL) as [K|K]; [exact K|exfalso; apply FX; rewrite K; apply fmt]].
      + intros d _. destruct (Rle_or_lt (B2R d) x) as [K|K]; [left; apply DM; [apply fmt|exact K]|right; apply UM; [apply fmt|lra]].
      + assert (R : B2R (if deq lb p then lb else ub) = B2R p).
        { destruct (deq lb p) eqn:D; [apply deq_true in D; rewrite !FE in D by assumption; congruence|].
          destruct (round_DN_or_UP radix2 fexp64 (round_mode mode_NE) x) as [K|K]; [|congruence].
          exfalso. assert (X : deq lb p = true) by (apply deq_spec; auto; rewrite !FE by assumption; congruence). congruence. }
        pose (q := (if deq lb p then lb else ub) : dbl). change (nearest q x). change (B2R q = B2R p) in R. intros d _. rewrite R, P2. destruct (round_N_pt radix2 fexp64 (fun z => negb (Z.even z)) x) as [_ G]. apply G. apply fmt.
  Qed.
  Lemma take_digits_le s : forall v k, let '(_, _, r) := take_digits s v k in (String.length r <= String.length s)%nat.
  Proof. induction s as [|c s IH]; intros v k; [cbn; lia|]. cbn [take_digits]. destruct (digit c) as [d|]; [|cbn; lia]. specialize (IH (10 * v + d) (k + 1)). destruct (take_digits s _ _) as [[? ?] r]. cbn [String.length]. lia. Qed.
  Lemma is_int_ok t : well_formed t -> is_int (show t) = true <-> integral t.
  Proof.
    intros [W1 W2]. unfold is_int, integral. rewrite show_eq, take_sign_show by apply body_nosign. cbn [snd].
    assert (N1 : nodigit (append (frac_text t) (exp_text t))).
    { unfold frac_text, exp_text. destruct (n_frac t); [reflexivity|]. destruct (n_exp t) as [[[u s] es]|]; [|exact I]. destruct u; reflexivity. }
    assert (Em : append (frac_text t) (exp_text t) = EmptyString <-> n_frac t = None /\ n_exp t = None).
    { unfold frac_text, exp_text. destruct (n_frac t); [cbn; split; [discriminate|intros []; discriminate]|]. destruct (n_exp t) as [[[u s] es]|]; [|cbn; tauto]. cbn. destruct u; split; (discriminate || intros []; discriminate). }
    destruct (n_int t) as [|d ds].
    - cbn [show_digits fold_right append]. split; [|intros (_ & _ & [])]. destruct (append (frac_text t) (exp_text t)) as [|c r]; [discriminate|]. cbn in N1. rewrite N1. discriminate.
    - cbn [show_digits fold_right append]. rewrite digit_show. fold (show_digits ds). rewrite (take_digits_show ds) by exact N1.
      destruct (append (frac_text t) (exp_text t)) as [|c r] eqn:A.
      + destruct Em as [Em _]. destruct (Em eq_refl) as [E1 E2]. rewrite E1, E2, app_nil_s. destruct ds as [|d2 ds]; [cbn; rewrite orb_true_r; tauto|]. cbn [show_digits fold_right]. rewrite orb_false_r, negb_true_iff, Z.eqb_neq.
        split; [intros H; repeat split; intros ->; now apply H|intros (_ & _ & H) C; apply H; destruct d; cbn in C; congruence].
      + split; [discriminate|]. intros (E1 & E2 & _). destruct Em as [_ Em]. discriminate (Em (conj E1 E2)).
  Qed.
  Lemma int_reads t : integral t -> read_int (show t) = (let z := signed (n_sign t) (number (n_int t)) in if (- 2 ^ 63 <=? z) && (z <? 2 ^ 63) then option_map EConst (convert_int64_to_double z) else None) /\ value t = IZR (signed (n_sign t) (number (n_int t))).
  Proof.
    intros (E1 & E2 & E3). split.
    - unfold read_int. rewrite show_eq, take_sign_show by apply body_nosign. unfold frac_text, exp_text. rewrite E1, E2. rewrite (take_digits_show (n_int t) (append EmptyString EmptyString)) by exact I.
      change (num_from 0 (n_int t)) with (number (n_int t)). destruct (n_sign t); reflexivity.
    - unfold value, fraction, exponent. rewrite E1, E2, app_nil_r. cbn. ring.
  Qed.
  Theorem number_ok t e : well_formed t -> read_number under mid (show t) = Some e -> stands_for e (value t).
  Proof.
    intros W. unfold read_number. destruct (is_int (show t)) eqn:I; [|apply double_ok, W]. apply (is_int_ok t W) in I. destruct (int_reads t I) as [-> V]. rewrite V. cbv zeta. set (z := signed _ _).
    destruct (_ && _)%bool; [|discriminate]. destruct (convert_int64_to_double z) as [c|] eqn:C; [|discriminate]. intros H. cbn [option_map] in H. assert (E : e = EConst c) by congruence. subst e. left. exists c. split; [reflexivity|].
    apply (proj1 (to_double_spec z) c C).
  Qed.
End Read.
