(** Concrete midpoint function and boxes; witnesses for the refutations. *)
From Coq Require Import ZArith Reals Lra Lia List Bool.
From Flocq Require Import Core.Core IEEE754.BinarySingleNaN.
From Verif Require Import Dbl DblProofs Syntax Sem Interval IntervalProofs BoxHeap BoxHeapProofs MathConv MathConvProofs ExamplesForm.
Import ListNotations.

(** ibex::Interval::mid(): 0, -DBL_MAX, DBL_MAX for unbounded intervals, otherwise (lb+ub)/2 kept
    inside the bounds. *)
Definition ibex_mid (l u : dbl) : dbl :=
  let m := if deq l dninf then (if deq u dpinf then dzero else dopp dmax)
           else if deq u dpinf then dmax else dmul (mkd 1 (-1)) (dadd l u) in
  if is_finite m && dle l m && dle m u then m
  else if is_finite l then l else if is_finite u then u else dzero.
Lemma ibex_mid_ok : mid_ok ibex_mid.
Proof.
  intros l u K. unfold ibex_mid. cbv zeta. set (m := if deq l dninf then _ else _).
  pose proof K as (A & B & C).
  destruct (is_finite m && dle l m && dle m u) eqn:E.
  - apply andb_true_iff in E. destruct E as [E E3]. apply andb_true_iff in E. tauto.
  - destruct (is_finite l) eqn:Fl.
    + split; auto. split; auto. apply dle_spec; try (destruct l; auto; discriminate). apply ext_le_refl.
    + destruct (is_finite u) eqn:Fu.
      * split; auto. split; auto. apply dle_spec; try (destruct u; auto; discriminate). apply ext_le_refl.
      * clear E m. destruct l as [|[]| |], u as [|[]| |]; try discriminate; auto.
Qed.

(** x in [0,4] (Real), n in [-3,8] (Int) *)
Definition exb : box := mkBox [vx; vi] [IV dzero (dZ 4); IV (dZ (-3)) (dZ 8)].
Lemma exb_ok : box_ok exb.
Proof.
  split; [|split; [reflexivity|]].
  - constructor; [|constructor; [tauto|constructor]]. intros [C|[]]. discriminate.
  - repeat (constructor; [vm_compute; auto|]). constructor.
Qed.
Example exb_bisect0 : match b_bisect ibex_mid exb 0 with
  | Some (b1, b2) => i_eqb (b_get b1 0) (IV dzero (dZ 2)) && i_eqb (b_get b2 0) (IV (dZ 2) (dZ 4))
  | None => false end = true.
Proof. vm_compute. reflexivity. Qed.
(** mid = 2.5: [-3,2] and [3,8] *)
Example exb_bisect1 : match b_bisect ibex_mid exb 1 with
  | Some (b1, b2) => i_eqb (b_get b1 1) (IV (dZ (-3)) (dZ 2)) && i_eqb (b_get b2 1) (IV (dZ 3) (dZ 8))
  | None => false end = true.
Proof. vm_compute. reflexivity. Qed.

(** An integer variable with domain [0, 2^54 + 4]: the midpoint 2^53 + 2 plus one is rounded to
    2^53 + 4, so the integer 2^53 + 3 is in neither half. *)
Definition exbig : box := mkBox [vi] [IV dzero (mkd 18014398509481988 0)].
Lemma exbig_ok : box_ok exbig.
Proof.
  split; [|split; [reflexivity|]].
  - constructor; [|constructor]. intros [].
  - repeat (constructor; [vm_compute; auto|]). constructor.
Qed.
Lemma exbig_mid : ibex_mid dzero (mkd 18014398509481988 0) = dZ 9007199254740994.
Proof. apply B2SF_inj. vm_compute. reflexivity. Qed.
Lemma exbig_next : dadd (dfloor (dZ 9007199254740994)) (dZ 1) = dZ 9007199254740996.
Proof. apply B2SF_inj. vm_compute. reflexivity. Qed.
Lemma dZ_shift z k : (Z.abs z < 2 ^ 53)%Z -> (0 <= k <= 60)%Z ->
  is_finite (dZ (z * 2 ^ k)) = true /\ B2R (dZ (z * 2 ^ k)) = IZR (z * 2 ^ k).
Proof.
  intros H Hk. unfold dZ, mkd.
  pose proof (binary_normalize_correct prec64 emax64 _ _ mode_NE (z * 2 ^ k) 0 false) as C.
  assert (E : F2R (Float radix2 (z * 2 ^ k) 0) = IZR (z * 2 ^ k)) by (unfold F2R; simpl; lra).
  cbn [round_mode] in C. rewrite E in C.
  assert (Fmt : dfmt (IZR (z * 2 ^ k))).
  { apply (generic_format_FLT radix2 (SpecFloat.emin prec64 emax64) prec64).
    exists (Float radix2 z k); cbn [Fnum Fexp].
    - unfold F2R. cbn [Fnum Fexp]. rewrite mult_IZR. f_equal. change 2%Z with (radix_val radix2). apply IZR_Zpower. lia.
    - exact H.
    - unfold SpecFloat.emin, prec64, emax64; lia. }
  rewrite round_generic in C; auto with typeclass_instances.
  rewrite Rlt_bool_true in C.
  - destruct C as (A & B & _). auto.
  - rewrite <- abs_IZR. apply Rlt_le_trans with (bpow radix2 113); [|apply bpow_le; unfold emax64; lia].
    rewrite <- (IZR_Zpower radix2) by lia. apply IZR_lt. rewrite Z.abs_mul, (Z.abs_eq (2 ^ k)) by lia.
    change (radix_val radix2) with 2%Z. change (2 ^ 113)%Z with (2 ^ 53 * 2 ^ 60)%Z.
    assert (0 < 2 ^ k <= 2 ^ 60)%Z by (split; [lia|apply Z.pow_le_mono_r; lia]).
    nia.
Qed.
#[local] Opaque mkd dZ.
Lemma exbig_loses : exists b1 b2 rho, b_bisect ibex_mid exbig 0 = Some (b1, b2) /\
  isint (rho vi) /\ in_box rho exbig /\ ~ in_box rho b1 /\ ~ in_box rho b2.
Proof.
  destruct (b_bisect ibex_mid exbig 0) as [[b1 b2]|] eqn:E; [|assert (X : match b_bisect ibex_mid exbig 0 with None => true | _ => false end = false) by (vm_compute; reflexivity); rewrite E in X; discriminate].
  exists b1, b2, (fun _ => IZR 9007199254740995). split; [reflexivity|]. split; [eexists; reflexivity|].
  destruct (b_bisect_inv _ _ _ _ _ E) as (v & l & u & x & y & Ev & Eg & _ & -> & -> & Hc).
  injection Ev as <-. injection Eg as <- <-. destruct Hc as [[T _]|[_ Hc]]; [discriminate|].
  unfold bisect_int in Hc. rewrite exbig_mid, exbig_next in Hc. 
  pose proof (f_equal fst Hc) as Hx. pose proof (f_equal snd Hc) as Hy. cbn [fst snd] in Hx, Hy. clear Hc. subst x y.
  destruct (dZ_shift 4503599627370497 1) as [F1 R1]; [lia|lia|]. destruct (dZ_shift 4503599627370498 1) as [F2 R2]; [lia|lia|].
  destruct (dZ_shift 4503599627370497 2) as [F3 R3]; [lia|lia|].
  change (4503599627370497 * 2 ^ 1)%Z with 9007199254740994%Z in *.
  change (4503599627370498 * 2 ^ 1)%Z with 9007199254740996%Z in *.
  change (4503599627370497 * 2 ^ 2)%Z with 18014398509481988%Z in *.
  split; [|split].
  - split; [reflexivity|]. intros i v Hv; destruct i as [|[|i]]; [|discriminate Hv|discriminate Hv]. injection Hv as <-.
    cbn [exbig b_get bvals nth imem]. split; [cbn; lra|]. change (mkd 18014398509481988 0) with (dZ 18014398509481988).
    rewrite (finite_d2e _ F3). cbn [ext_le]. rewrite R3. lra.
  - intros [_ H]. specialize (H 0%nat vi eq_refl). rewrite b_get_set_eq in H by (simpl; lia).
    apply mk_ival_mem_imp in H. destruct H as [_ H].
    rewrite finite_d2e in H by (rewrite dfloor_fin; exact F1). cbn [ext_le] in H. rewrite dfloor_R, R1, Zfloor_IZR in H. lra.
  - intros [_ H]. specialize (H 0%nat vi eq_refl). rewrite b_get_set_eq in H by (simpl; lia).
    apply mk_ival_mem_imp in H. destruct H as [H _].
    rewrite finite_d2e in H by exact F2. cbn [ext_le] in H. rewrite R2 in H. lra.
Qed.

(** Copy, then grow the copy: the original is unchanged. *)
Definition ex_ops : list bop :=
  [ONew; OAddDom 0 vx dzero (dZ 4); OCopy 0; OAdd 1 vb; OSetVar 1 vx (IV dzero (dZ 1)); OCopy 1; OSetEmpty 2].
Lemma ex_ops_pre : ops_pre [] ex_ops.
Proof.
  cbn [ops_pre ex_ops op_pre]. repeat split; intros b H; apply (f_equal (option_map bvars)) in H; vm_compute in H;
    injection H as E; change (match b with {| bvars := bvars |} => bvars end) with (bvars b) in E; rewrite <- E; simpl; intuition discriminate.
Qed.
(** Reading a variable the box does not have, through a copy. *)
Definition ex_leak : list bop := [ONew; OAdd 0 vx; OCopy 0; OGetVar 1 vy].
Lemma ex_leak_seen : obs_has (h_run [ONew; OAdd 0 vx; OCopy 0]) 0 vy = Some false /\ obs_has (h_run ex_leak) 0 vy = Some true.
Proof. split; vm_compute; reflexivity. Qed.
