(** Reading back a printed double *)
From Coq Require Import ZArith Reals Lra Lia List Bool Ascii String Psatz.
From Flocq Require Import Core.Core IEEE754.BinarySingleNaN.
From Verif Require Import Dbl DblProofs Interval Syntax MathConv FilterProofs SpecLiteral Literal LiteralProofs LiteralTop Prefix PrefixNum PrefixRead SpecPrefix.
Import ListNotations.
Local Open Scope Z_scope.
#[local] Instance vexp64 : Valid_exp fexp64 := fexp_correct prec64 emax64 _.

Lemma ulp_big x : (0 <= x -> x * bpow radix2 (-53) <= ulp radix2 fexp64 x)%R.
Proof. intros H. rewrite <- (Rabs_pos_eq x H) at 1. left. exact (ulp_FLT_gt radix2 (SpecFloat.emin prec64 emax64) prec64 x). Qed.
Lemma next_gap (x y : R) : generic_format radix2 fexp64 x -> generic_format radix2 fexp64 y -> (0 <= x < y)%R -> (x + x * bpow radix2 (-53) <= y)%R.
Proof.
  intros Fx Fy [P L]. pose proof (succ_le_lt radix2 fexp64 x y Fx Fy L) as S0. rewrite succ_eq_pos in S0 by exact P. pose proof (ulp_big x P). lra.
Qed.
(** Different doubles are apart. *)
Lemma apart (x y : R) : generic_format radix2 fexp64 x -> generic_format radix2 fexp64 y -> (0 < x)%R -> (Rabs (y - x) < x * bpow radix2 (-54))%R -> y = x.
Proof.
  intros Fx Fy P L. apply Rabs_def2 in L. destruct L as [L1 L2]. assert (B : bpow radix2 (-53) = (2 * bpow radix2 (-54))%R) by (change (-53) with (1 + -54); rewrite bpow_plus; reflexivity).
  assert (B0 : (0 < bpow radix2 (-54))%R) by apply bpow_gt_0. assert (B1 : (bpow radix2 (-54) <= 1 / 4)%R). { change (1 / 4)%R with (1 * / 4)%R. replace (1 * / 4)%R with (bpow radix2 (-2)) by (cbn; lra). apply bpow_le. lia. }
  destruct (Rtotal_order x y) as [C|[C|C]]; [|auto|].
  - pose proof (next_gap x y Fx Fy ltac:(lra)). nra.
  - assert (x / 2 < y)%R by nra. pose proof (next_gap y x Fy Fx ltac:(lra)). nra.
Qed.
Lemma tiny : (powerRZ 10 (-18) <= bpow radix2 (-55))%R.
Proof.
  change (bpow radix2 (-55)) with (/ IZR (2 ^ 55))%R. change (powerRZ 10 (-18)) with (/ (10 ^ Pos.to_nat 18))%R. replace (10 ^ Pos.to_nat 18)%R with (IZR (10 ^ 18)).
  - apply Rinv_le; [apply IZR_lt; reflexivity|apply IZR_le; vm_compute; discriminate].
  - rewrite <- pow10 by lia. reflexivity.
Qed.
Lemma num_den m e : (IZR (num_of m e) / IZR (den_of e) = IZR (Zpos m) * bpow radix2 e)%R.
Proof.
  unfold num_of, den_of. destruct (0 <=? e) eqn:E.
  - apply Z.leb_le in E. rewrite mult_IZR. change 2 with (radix_val radix2). rewrite (IZR_Zpower radix2 e E). field.
  - apply Z.leb_gt in E. change 2 with (radix_val radix2). rewrite (IZR_Zpower radix2 (- e)) by lia. rewrite bpow_opp. field. apply Rgt_not_eq, bpow_gt_0.
Qed.
Lemma den_pos e : 0 < den_of e.
Proof. unfold den_of. destruct (0 <=? e) eqn:E; [lia|]. apply Z.leb_gt in E. apply Z.pow_pos_nonneg; lia. Qed.
Lemma num_pos m e : 0 < num_of m e.
Proof. unfold num_of. destruct (0 <=? e) eqn:E; [|lia]. apply Z.leb_le in E. apply Z.mul_pos_pos; [lia|apply Z.pow_pos_nonneg; lia]. Qed.

(** What the text of a positive double says *)
Theorem text_ok c : is_finite c = true -> (0 < B2R c)%R ->
  exists t, fmt19 c = show t /\ n_sign t = NoSign /\ well_formed t /\ (Rabs (value t - B2R c) <= powerRZ 10 (-18) / 2 * B2R c)%R /\
    ((powerRZ 10 19 <= B2R c)%R -> ~ integral t) /\ (short c -> value t = B2R c).
Proof.
  intros F P. destruct c as [s|s| |s m e H]; try discriminate F; [cbn in P; lra|]. destruct s; [exfalso; cbn [B2R] in P; pose proof (F2R_lt_0 radix2 {| Fnum := Zneg m; Fexp := e |} ltac:(cbn; lia)); cbn [SpecFloat.cond_Zopp Z.opp] in P; lra|].
  set (c := B754_finite false m e H) in *. assert (V : B2R c = (IZR (num_of m e) / IZR (den_of e))%R) by (rewrite num_den; reflexivity).
  assert (G1 : ge10 (num_of m e) (den_of e) (-331) = true).
  { apply ge10_spec; [apply num_pos|apply den_pos|]. rewrite num_den. apply Rle_trans with (bpow radix2 (-1074)).
    - change (bpow radix2 (-1074)) with (/ IZR (Z.pow_pos 2 1074))%R. assert (Ep : powerRZ 10 (-331) = (/ IZR (10 ^ 331))%R) by (rewrite <- pow10 by lia; reflexivity). rewrite Ep.
      apply Rinv_le; [apply IZR_lt; vm_compute; reflexivity|apply IZR_le; vm_compute; discriminate].
    - assert (E : -1074 <= e). { pose proof H as B. unfold SpecFloat.bounded in B. apply andb_true_iff in B. destruct B as [B _]. unfold SpecFloat.canonical_mantissa in B. apply Zeq_bool_eq in B. unfold SpecFloat.fexp, SpecFloat.emin, prec64, emax64 in B. lia. }
      apply bpow_le with (r := radix2) in E. assert (1 <= IZR (Zpos m))%R by (apply (IZR_le 1); lia). pose proof (bpow_gt_0 radix2 e). nra. }
  assert (G2 : ge10 (num_of m e) (den_of e) 310 = false).
  { destruct (ge10 (num_of m e) (den_of e) 310) eqn:E; [|reflexivity]. exfalso. apply ge10_spec in E; [|apply num_pos|apply den_pos]. rewrite <- V in E. pose proof (abs_B2R_lt_emax prec64 emax64 c) as A. rewrite Rabs_pos_eq in A by lra.
    assert (bpow radix2 emax64 <= powerRZ 10 310)%R; [|lra]. rewrite pow10 by lia. change (bpow radix2 emax64) with (IZR (Z.pow_pos 2 1024)). apply IZR_le. vm_compute. discriminate. }
  pose proof (sci19_spec (num_of m e) (den_of e) (num_pos m e) (den_pos e) G1 G2) as S0. cbn [fmt19 c]. destruct (sci19 (num_of m e) (den_of e)) as [d x]. destruct S0 as (S1 & S2 & S3 & S4 & S5). rewrite <- V in S3, S4, S5.
  destruct (g19_ok d x ltac:(lia) ltac:(lia)) as (T1 & T2 & T3). exists (g19 d x). split; [reflexivity|]. split; [exact T1|]. split; [exact T2|]. rewrite T3. split; [exact S3|]. split.
  - intros B I0. apply g19_integral in I0. specialize (S4 B). lia.
  - intros (n & k & N & E). rewrite Rabs_pos_eq in E by lra. apply (S5 n k N). exact E.
Qed.

(** ** Reading *)
Lemma is_number_show t : well_formed t -> is_number (show t) = true.
Proof.
  intros [W1 W2]. rewrite show_eq. unfold is_number. rewrite take_sign_show by apply body_nosign. cbn [snd].
  assert (ND : nodigit (append (frac_text t) (exp_text t))). { unfold frac_text, exp_text. destruct (n_frac t); [reflexivity|]. destruct (n_exp t) as [[[[] ?] ?]|]; exact I || reflexivity. }
  rewrite take_digits_show by exact ND. cbn [Z.add].
  assert (NE : nodigit (exp_text t)). { unfold exp_text. destruct (n_exp t) as [[[[] ?] ?]|]; exact I || reflexivity. }
  set (k1 := Z.of_nat (List.length (n_int t))).
  assert (Fin0 : forall dot k2, (k1 + k2 =? 0) = false -> 0 <= k2 -> (n_exp t <> None -> dot && (k2 =? 0) = false) ->
    (if k1 + k2 =? 0 then false else match exp_text t with EmptyString => true
      | String c r => (Ascii.eqb c "e" || Ascii.eqb c "E") && negb (dot && (k2 =? 0)) && (let '(_, k, r') := take_digits (snd (take_sign r)) 0 0 in negb (k =? 0) && match r' with EmptyString => true | _ => false end) end) = true).
  { intros dot k2 -> K Hx. unfold exp_text. destruct (n_exp t) as [[[u s] es]|]; [|reflexivity]. rewrite Hx by discriminate.
    assert (Q : take_digits (snd (take_sign (append (show_sign s) (show_digits es)))) 0 0 = (num_from 0 es, 0 + Z.of_nat (List.length es), EmptyString)).
    { rewrite take_sign_show; [cbn [snd]; rewrite <- (app_nil_s (show_digits es)); apply take_digits_show; exact I|]. rewrite <- (app_nil_s (show_digits es)). apply show_digits_nosign. exact I. }
    destruct u; cbn [append Ascii.eqb Bool.eqb orb andb negb]; rewrite Q; destruct es; try congruence; reflexivity. }
  unfold frac_text. destruct (n_frac t) as [ds|] eqn:Ef.
  - cbn [append]. change (Ascii.eqb "." ".") with true. cbv iota. rewrite take_digits_show by exact NE. cbn [Z.add]. apply Fin0.
    + apply Z.eqb_neq. unfold k1. destruct ds; [destruct W1 as [W1 _]; destruct (n_int t); [congruence|cbn [List.length]; lia]|cbn [List.length]; lia].
    + lia.
    + intros Hn. cbn [andb]. apply Z.eqb_neq. destruct ds; [destruct W1 as [_ W1]; congruence|cbn [List.length]; lia].
  - cbn [append]. assert (NDot : match exp_text t with String c r => if Ascii.eqb c "." then let '(_, k, r') := take_digits r 0 0 in (true, k, r') else (false, 0, exp_text t) | EmptyString => (false, 0, exp_text t) end = (false, 0, exp_text t)).
    { unfold exp_text. destruct (n_exp t) as [[[[] ?] ?]|]; reflexivity. }
    rewrite NDot. apply Fin0; [|lia|reflexivity]. apply Z.eqb_neq. unfold k1. destruct (n_int t); [congruence|cbn [List.length]; lia].
Qed.
Section Reread.
  Variables (under : mode -> string -> bool) (mid : dbl -> dbl -> dbl).
  Hypothesis HM : mid_ok mid.
  Lemma recalls_pos c t e : (0 < B2R c)%R -> well_formed t -> (Rabs (value t - B2R c) <= powerRZ 10 (-18) / 2 * B2R c)%R -> read_number under mid (show t) = Some e -> recalls e c.
  Proof.
    intros P W Er R0. pose proof (number_ok under mid HM t e W R0) as St. pose proof tiny as T. assert (B : bpow radix2 (-54) = (2 * bpow radix2 (-55))%R) by (change (-54) with (1 + -55); rewrite bpow_plus; reflexivity).
    pose proof (bpow_gt_0 radix2 (-55)) as B0. pose proof (p10_pos (-18)) as P10. set (q := powerRZ 10 (-18)) in *.
    assert (K1 : (q * B2R c <= bpow radix2 (-55) * B2R c)%R) by (apply Rmult_le_compat_r; lra). assert (K2 : (0 < bpow radix2 (-55) * B2R c)%R) by (apply Rmult_lt_0_compat; lra).
    destruct St as [(d & E & F & V)|(lb & ub & u & E & F1 & F2 & _ & _ & N)].
    - left. exists d. split; [exact E|]. split; [exact F|]. apply apart; [apply fmt..|exact P|]. rewrite V. apply Rle_lt_trans with (1 := Er). rewrite B. lra.
    - right. exists lb, ub, u. repeat split; auto. apply apart; [destruct u; apply fmt|apply fmt|exact P|]. set (d := if u then lb else ub) in *.
      specialize (N c). assert (Fc : is_finite c = true) by (destruct c; [reflexivity|cbn in P; lra|cbn in P; lra|reflexivity]). specialize (N Fc).
      change (Rabs (B2R d - B2R c) < B2R c * bpow radix2 (-54))%R. replace (B2R d - B2R c)%R with ((B2R d - value t) + (value t - B2R c))%R by ring. apply Rle_lt_trans with (1 := Rabs_triang _ _). rewrite (Rabs_minus_sym (B2R c) (value t)) in N. rewrite B. lra.
  Qed.
  (** Whatever is read is the constant, if anything is. *)
  Theorem reread_ok c e : is_finite c = true -> dge c dzero = true -> read_number under mid (fmt19 c) = Some e -> recalls e c.
  Proof.
    intros F G R0. assert (P : (0 <= B2R c)%R). { unfold dge in G. rewrite dle_spec in G; [|reflexivity|destruct c; [reflexivity|reflexivity|discriminate F|reflexivity]]. rewrite (finite_d2e _ F) in G. change (d2e dzero) with (Fin 0) in G. exact G. }
    destruct (Rle_lt_or_eq_dec _ _ P) as [P'|Z0].
    - destruct (text_ok c F P') as (t & E & _ & W & V & _). rewrite E in R0. exact (recalls_pos c t e P' W V R0).
    - assert (exists s, c = B754_zero s) as [s ->]. { destruct c as [s| | |s m x H]; try discriminate F; [exists s; reflexivity|]. exfalso. symmetry in Z0. cbn [B2R] in Z0. apply eq_0_F2R in Z0. destruct s; discriminate Z0. }
      assert (Eq : exists d, e = EConst d /\ is_finite d = true /\ B2R d = 0%R).
      { assert (X : read_number under mid (fmt19 (B754_zero s)) = Some (EConst (dZ 0))) by (destruct s; reflexivity). exists (dZ 0). split; [congruence|]. apply (MathConvProofs.dZ_exact 0). cbn. lia. }
      destruct Eq as (d & -> & Fd & Vd). left. exists d. auto.
  Qed.
  Lemma is_int_fmt0 s : is_int (fmt19 (B754_zero s)) = true. Proof. destruct s; reflexivity. Qed.
  Lemma dmax_text : exists t, fmt19 dmax = show t /\ well_formed t /\ (value t <= B2R dmax)%R.
  Proof.
    assert (E : fmt19 dmax = show (g19 1797693134862315708 308)) by (vm_compute; reflexivity). destruct (g19_ok 1797693134862315708 308) as (_ & W & V); [lia|lia|].
    exists (g19 1797693134862315708 308). split; [exact E|]. split; [exact W|]. rewrite V, dmax_R. change (308 - 18) with 290. rewrite dec_frac.
    assert (N1 : dec_num 1797693134862315708 290 = 1797693134862315708 * 10 ^ 290) by reflexivity. assert (N2 : dec_den 290 = 1) by reflexivity. rewrite N1, N2.
    change (bpow radix2 1024) with (IZR (Z.pow_pos 2 1024)). change (bpow radix2 971) with (IZR (Z.pow_pos 2 971)). rewrite <- minus_IZR. unfold Rdiv. rewrite Rinv_1, Rmult_1_r. apply IZR_le. vm_compute. discriminate.
  Qed.
  (** and something is, for writable constants *)
  Theorem reread_some c : writable c -> dge c dzero = true -> exists e, read_number under mid (fmt19 c) = Some e.
  Proof.
    intros (F & W1 & W2) G. assert (P : (0 <= B2R c)%R). { unfold dge in G. rewrite dle_spec in G; [|reflexivity|destruct c; [reflexivity|reflexivity|discriminate F|reflexivity]]. rewrite (finite_d2e _ F) in G. change (d2e dzero) with (Fin 0) in G. exact G. }
    rewrite !Rabs_pos_eq in W1, W2 by exact P. destruct (Rle_lt_or_eq_dec _ _ P) as [P'|Z0].
    - destruct W1 as [W1|W1]; [lra|]. destruct (text_ok c F P') as (t & E & Sg & W & V & I0 & _). rewrite E. pose proof tiny as T. pose proof (p10_pos (-18)) as P10.
      assert (B55 : (0 < bpow radix2 (-55) <= 1 / 4)%R). { split; [apply bpow_gt_0|]. replace (1 / 4)%R with (bpow radix2 (-2)) by (cbn; lra). apply bpow_le. lia. }
      set (q := powerRZ 10 (-18)) in *. pose proof (Rabs_le_inv _ _ V) as [V1 V2]. assert (Vp : (0 < value t)%R) by nra. apply number_some; [exact W| |].
      + destruct (is_int (show t)) eqn:Ei; [|rewrite Sg; discriminate]. apply (is_int_ok t W) in Ei. destruct W2 as [W2|W2]; [|destruct (I0 W2 Ei)].
        destruct (int_reads t Ei) as [_ Ez]. rewrite Rabs_pos_eq by lra. rewrite Ez. rewrite Ez in V2. set (z := signed (n_sign t) (number (n_int t))) in *. apply IZR_le. apply Z.lt_succ_r. apply lt_IZR. rewrite succ_IZR.
        assert (Q : (q / 2 * B2R c < 1)%R); [|lra]. apply Rle_lt_trans with (bpow radix2 (-55) / 2 * bpow radix2 53)%R.
        * change (IZR (2 ^ 53)) with (bpow radix2 53) in W2. apply Rmult_le_compat; lra.
        * replace (bpow radix2 (-55) / 2 * bpow radix2 53)%R with ((bpow radix2 (-55) * bpow radix2 53) / 2)%R by field. rewrite <- bpow_plus. cbn. lra.
      + right. rewrite Rabs_pos_eq by lra. split.
        * assert (Bp : bpow radix2 (-1020) = (2 * bpow radix2 (-1021))%R) by (change (-1020) with (1 + -1021); rewrite bpow_plus; reflexivity). pose proof (bpow_gt_0 radix2 (-1021)). nra.
        * destruct (Req_dec (B2R c) (B2R dmax)) as [Q|Q].
          -- assert (c = dmax). { apply B2R_Bsign_inj; [exact F|reflexivity|exact Q|]. destruct c as [s| | |s m x H]; try discriminate F; [cbn in P'; lra|]. destruct s; [|reflexivity]. exfalso. cbn [B2R] in P'. pose proof (F2R_lt_0 radix2 {| Fnum := Zneg m; Fexp := x |} ltac:(cbn; lia)). cbn [SpecFloat.cond_Zopp Z.opp] in P'. lra. }
             subst c. destruct dmax_text as (t' & E' & W' & L). assert (Et : value t = value t').
             { rewrite E in E'. pose proof (reads_show t W) as R1. pose proof (reads_show t' W') as R2. rewrite E' in R1. rewrite R1 in R2. rewrite !value_eq. unfold minus. injection R2 as R3 R4 R5. rewrite R3, R4, R5. reflexivity. }
             rewrite Et. exact L.
          -- assert (Lm : (B2R c <= B2R dmax)%R). { pose proof (dmax_top c F) as L. rewrite (finite_d2e _ F), (finite_d2e _ dmax_fin) in L. exact L. }
             pose proof (next_gap (B2R c) (B2R dmax) (fmt _) (fmt _) ltac:(lra)) as X. assert (B : bpow radix2 (-53) = (4 * bpow radix2 (-55))%R) by (change (-53) with (2 + -55); rewrite bpow_plus; reflexivity). nra.
    - assert (exists s, c = B754_zero s) as [s ->]. { destruct c as [s| | |s m x H]; try discriminate F; [exists s; reflexivity|]. exfalso. symmetry in Z0. cbn [B2R] in Z0. apply eq_0_F2R in Z0. destruct s; discriminate Z0. }
      destruct s; eexists; vm_compute; reflexivity.
  Qed.
  (** Numbers of at most 19 digits come back as themselves. *)
  Theorem reread_exact c e : is_finite c = true -> dge c dzero = true -> short c -> read_number under mid (fmt19 c) = Some e -> exists d, e = EConst d /\ is_finite d = true /\ B2R d = B2R c.
  Proof.
    intros F G Sh R0. destruct (reread_ok c e F G R0) as [H|(lb & ub & u & E & _ & _ & V)]; [exact H|]. exfalso.
    assert (P : (0 <= B2R c)%R). { unfold dge in G. rewrite dle_spec in G; [|reflexivity|destruct c; [reflexivity|reflexivity|discriminate F|reflexivity]]. rewrite (finite_d2e _ F) in G. change (d2e dzero) with (Fin 0) in G. exact G. }
    destruct (Rle_lt_or_eq_dec _ _ P) as [P'|Z0].
    - destruct (text_ok c F P') as (t & Et & _ & W & _ & _ & X). specialize (X Sh). rewrite Et in R0. destruct (number_ok under mid HM t e W R0) as [(d & E' & _)|(lb' & ub' & u' & E' & _ & _ & L & N & _)]; [congruence|].
      destruct (N c F); rewrite X in L; lra.
    - assert (exists s, c = B754_zero s) as [s ->]. { destruct c as [s| | |s m x H]; try discriminate F; [exists s; reflexivity|]. exfalso. symmetry in Z0. cbn [B2R] in Z0. apply eq_0_F2R in Z0. destruct s; discriminate Z0. }
      assert (X : read_number under mid (fmt19 (B754_zero s)) = Some (EConst (dZ 0))) by (destruct s; reflexivity). congruence.
  Qed.
End Reread.
(** The text of a double that is not negative is a number. *)
Lemma fmt_word c : is_finite c = true -> dge c dzero = true -> exists t, well_formed t /\ fmt19 c = show t.
Proof.
  intros F G. assert (P : (0 <= B2R c)%R). { unfold dge in G. rewrite dle_spec in G; [|reflexivity|destruct c; [reflexivity|reflexivity|discriminate F|reflexivity]]. rewrite (finite_d2e _ F) in G. change (d2e dzero) with (Fin 0) in G. exact G. }
  destruct (Rle_lt_or_eq_dec _ _ P) as [P'|Z0].
  - destruct (text_ok c F P') as (t & Et & _ & W & _). exists t. auto.
  - assert (exists s, c = B754_zero s) as [s ->]. { destruct c as [s| | |s m x H]; try discriminate F; [exists s; reflexivity|]. exfalso. symmetry in Z0. cbn [B2R] in Z0. apply eq_0_F2R in Z0. destruct s; discriminate Z0. }
    exists {| n_sign := if s then Minus else NoSign; n_int := [D0]; n_frac := None; n_exp := None |}. split; [repeat split; discriminate|destruct s; reflexivity].
Qed.
