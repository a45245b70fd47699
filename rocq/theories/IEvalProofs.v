(** Soundness of interval evaluation and of the three-valued evaluation. *)
From Coq Require Import ZArith Reals Lra Lia List Bool.
From Flocq Require Import Core.Core IEEE754.BinarySingleNaN.
From Verif Require Import Dbl DblProofs Syntax Sem SemProofs Interval IntervalProofs MathConv MathConvProofs IEval.
Import ListNotations.
Local Open Scope R_scope.

Lemma two_R : B2R (dZ 2) = 2. Proof. unfold dZ, mkd. cbn. unfold F2R; simpl. lra. Qed.
#[local] Opaque dZ mkd.

Lemma i_point_mem c : is_finite c = true -> imem (B2R c) (i_point c).
Proof.
  intros F. unfold i_point. apply mk_ival_mem; try (destruct c; auto; discriminate).
  rewrite (finite_d2e _ F). cbn. lra.
Qed.

Lemma b_getv_mem rho b v : box_ok b -> in_box rho b -> In v (bvars b) -> imem (rho v) (b_getv b v).
Proof.
  intros K H I. unfold b_getv, b_idx0, b_index. destruct (index_of_In _ _ I) as [i E]. rewrite E.
  apply index_of_nth in E. eapply in_box_comp; eauto.
Qed.
Lemma b_getv_ok b v : box_ok b -> i_ok (b_getv b v).
Proof. intros K. apply box_ok_get; auto. Qed.

Section Eval.
  Variables (M : interp) (D : pdom) (A : iarith).
  Hypothesis HA : ia_ok M D A.
  Hypothesis Hrc : rc_ok M.

  Lemma pow_eval_mem x y I J : i_ok J -> d_bin D BPow x y -> imem x I -> imem y J -> imem (i_bin M BPow x y) (pow_eval A I J).
  Proof.
    intros K Hd HI HJ. unfold pow_eval. destruct J as [|l u]; [contradiction|].
    destruct (deq l u) eqn:E; [|eapply ok_powI; eauto].
    destruct (i_ok_nan _ _ K) as [Nl Nu]. apply deq_true in E. cbn [imem] in HJ. destruct HJ as [H1 H2].
    rewrite <- E in H2. pose proof (ext_le_antisym _ _ H1 H2) as Ey.
    assert (F : is_finite l = true).
    { destruct l as [|[]| |]; auto; discriminate. }
    rewrite (finite_d2e _ F) in Ey. injection Ey as <-.
    destruct (is_integer l) eqn:Ei; [|eapply ok_powd; eauto].
    destruct (deq l (dZ 2)) eqn:E2.
    - apply deq_true in E2. rewrite (finite_d2e _ F) in E2.
      rewrite (finite_d2e (dZ 2)) in E2 by reflexivity. injection E2 as E2. rewrite E2, two_R in *.
      eapply ok_sqr; eauto.
    - apply is_integer_spec in Ei. destruct Ei as (_ & z & _ & Ez).
      assert (Et : IZR (Btrunc l) = B2R l).
      { rewrite Btrunc_correct by apply prec64_lt_emax. rewrite round_FIX0, Ez, Ztrunc_IZR. reflexivity. }
      rewrite <- Et in *. eapply ok_powi; eauto.
  Qed.
  Lemma pow_eval_ok I J : i_ok I -> i_ok J -> i_ok (pow_eval A I J).
  Proof.
    intros HI HJ. unfold pow_eval. destruct J as [|l u].
    - apply (ok_shape _ _ _ HA I IEmpty dzero 0%Z ULog); auto.
    - pose proof (ok_shape _ _ _ HA I (IV l u) l (Btrunc l) ULog HI HJ).
      destruct (deq l u); [destruct (is_integer l); [destruct (deq l (dZ 2))|]|]; tauto.
  Qed.

  Lemma evalI_ok b : box_ok b -> forall e i, evalI A e b = Some i -> i_ok i.
  Proof.
    intros K. apply (expr_ind2 (fun e => forall i, evalI A e b = Some i -> i_ok i) (fun _ => True)); auto; cbn [evalI].
    - intros c i [= <-]. apply mk_ival_ok.
    - intros l u _ i [= <-]. apply mk_ival_ok.
    - intros v i [= <-]. apply b_getv_ok; auto.
    - intros c ts Hts. assert (Hc : i_ok (i_point c)) by apply mk_ival_ok. revert Hc. generalize (i_point c) as i0.
      induction Hts as [|[a k] ts Ha Hts IH]; intros i0 H0 i; cbn [fold_left].
      + intros [= <-]; auto.
      + cbn [bind fst] in *. destruct (evalI A a b) as [x|] eqn:Ea; cbn [bind].
        * apply IH. specialize (Ha _ eq_refl).
          pose proof (ok_shape _ _ _ HA x x k 0%Z ULog Ha Ha) as S.
          apply (ok_shape _ _ _ HA i0 (ia_scale A x k) k 0%Z ULog); tauto.
        * intros E; exfalso; clear -E. induction ts as [|[a' k'] ts IH]; cbn in E; [discriminate|auto].
    - intros c ts Hts. assert (Hc : i_ok (i_point c)) by apply mk_ival_ok. revert Hc. generalize (i_point c) as i0.
      induction Hts as [|[a k] ts [Ha Hk] Hts IH]; intros i0 H0 i; cbn [fold_left].
      + intros [= <-]; auto.
      + cbn [bind fst snd] in *. destruct (evalI A a b) as [x|] eqn:Ea; cbn [bind]; [destruct (evalI A k b) as [y|] eqn:Ek; cbn [bind]|].
        * apply IH. specialize (Ha _ eq_refl). specialize (Hk _ eq_refl).
          apply (ok_shape _ _ _ HA i0 (pow_eval A x y) dzero 0%Z ULog); auto. apply pow_eval_ok; auto.
        * intros E; exfalso; clear -E. induction ts as [|[a' k'] ts IH]; cbn in E; [discriminate|auto].
        * intros E; exfalso; clear -E. induction ts as [|[a' k'] ts IH]; cbn in E; [discriminate|auto].
    - intros o a Ha i. destruct (evalI A a b) as [x|]; cbn [bind]; [|discriminate]. intros [= <-].
      specialize (Ha _ eq_refl). apply (ok_shape _ _ _ HA x x dzero 0%Z o); auto.
    - intros o a1 a2 H1 H2 i. destruct (evalI A a1 b) as [x|]; cbn [bind]; [|discriminate].
      destruct (evalI A a2 b) as [y|]; cbn [bind]; [|discriminate]. intros [= <-].
      specialize (H1 _ eq_refl). specialize (H2 _ eq_refl).
      pose proof (ok_shape _ _ _ HA x y dzero 0%Z ULog H1 H2). pose proof (pow_eval_ok _ _ H1 H2).
      destruct o; tauto.
    - discriminate.
    - discriminate.
  Qed.

  Lemma sum_shift rho c ts : fold_right (fun p acc => match p with (a, k) => B2R k * evalE M a rho + acc end) c ts =
    c + fold_right (fun (p : expr * dbl) acc => match p with (a, k) => B2R k * evalE M a rho + acc end) 0 ts.
  Proof. induction ts as [|[a k] ts IH]; cbn; [lra|]. rewrite IH. lra. Qed.
  Lemma prod_shift rho c ts : fold_right (fun p acc => match p with (a, k) => i_bin M BPow (evalE M a rho) (evalE M k rho) * acc end) c ts =
    c * fold_right (fun (p : expr * expr) acc => match p with (a, k) => i_bin M BPow (evalE M a rho) (evalE M k rho) * acc end) 1 ts.
  Proof. induction ts as [|[a k] ts IH]; cbn; [lra|]. rewrite IH. lra. Qed.

  Lemma evalI_encl_on b rho : box_ok b -> forall e,
    (forall v, In v (fvE e) -> imem (rho v) (b_getv b v)) -> finE e -> defE M D e rho ->
    forall i, evalI A e b = Some i -> imem (evalE M e rho) i.
  Proof.
    intros K.
    apply (expr_ind2 (fun e => (forall v, In v (fvE e) -> imem (rho v) (b_getv b v)) -> finE e -> defE M D e rho ->
       forall i, evalI A e b = Some i -> imem (evalE M e rho) i) (fun _ => True)); auto.
    - intros c _ F _ i [= <-]. apply i_point_mem; auto.
    - intros l u w _ (F & Fl & Fu) _ i [= <-]. cbn [evalE]. destruct (dle_not_nan _ _ F). apply mk_ival_mem; auto.
    - intros v Hv _ _ i [= <-]. apply Hv. left; reflexivity.
    - intros c ts Hts Hfv [Fc Ft] Hd i Hi. cbn [evalE]. rewrite sum_shift. cbn [evalI] in Hi.
      pose proof (i_point_mem c Fc) as H0. revert H0 Hi. generalize (i_point c) as i0. generalize (B2R c) as r0.
      cbn [fvE] in Hfv. cbn [defE] in Hd.
      induction Hts as [|[a k] ts Ha Hts IH]; intros r0 i0 H0; cbn [fold_left fold_right].
      + intros [= <-]. rewrite Rplus_0_r; auto.
      + cbn [flat_map] in Hfv. cbn [fold_right] in Ft, Hd. destruct Ft as [[Fa Fk] Ft], Hd as [Da Dt].
        cbn [bind fst] in *. destruct (evalI A a b) as [x|] eqn:Ea; cbn [bind].
        * intros Hi. rewrite <- Rplus_assoc. eapply IH; eauto.
          { intros v Hv; apply Hfv, in_or_app; auto. }
          eapply ok_add; eauto. eapply ok_scale; eauto. apply Ha; auto. intros v Hv; apply Hfv, in_or_app; auto.
        * intros E; exfalso; clear -E. induction ts as [|[a' k'] ts IH]; cbn in E; [discriminate|auto].
    - intros c ts Hts Hfv [Fc Ft] Hd i Hi. cbn [evalE]. rewrite prod_shift. cbn [evalI] in Hi.
      pose proof (i_point_mem c Fc) as H0. revert H0 Hi. generalize (i_point c) as i0. generalize (B2R c) as r0.
      cbn [fvE] in Hfv. cbn [defE] in Hd.
      induction Hts as [|[a k] ts [Ha Hk] Hts IH]; intros r0 i0 H0; cbn [fold_left fold_right].
      + intros [= <-]. rewrite Rmult_1_r; auto.
      + cbn [flat_map] in Hfv. cbn [fold_right] in Ft, Hd. destruct Ft as [[Fa Fk] Ft], Hd as [(Da & Dk & Dp) Dt].
        cbn [bind fst snd] in *. destruct (evalI A a b) as [x|] eqn:Ea; cbn [bind]; [destruct (evalI A k b) as [y|] eqn:Ek; cbn [bind]|].
        * intros Hi. rewrite <- Rmult_assoc. eapply IH; eauto.
          { intros v Hv; apply Hfv, in_or_app; auto. }
          eapply ok_mul; eauto. eapply pow_eval_mem; eauto.
          { eapply evalI_ok; eauto. }
          { apply Ha; auto. intros v Hv; apply Hfv, in_or_app; left; apply in_or_app; auto. }
          { apply Hk; auto. intros v Hv; apply Hfv, in_or_app; left; apply in_or_app; auto. }
        * intros E; exfalso; clear -E. induction ts as [|[a' k'] ts IH]; cbn in E; [discriminate|auto].
        * intros E; exfalso; clear -E. induction ts as [|[a' k'] ts IH]; cbn in E; [discriminate|auto].
    - intros o a Ha Hfv F [Da Du] i. cbn [evalI]. destruct (evalI A a b) as [x|]; cbn [bind]; [|discriminate].
      intros [= <-]. cbn [evalE]. eapply ok_un; eauto.
    - intros o a1 a2 H1 H2 Hfv [F1 F2] (D1 & D2 & Db) i. cbn [evalI].
      destruct (evalI A a1 b) as [x|] eqn:E1; cbn [bind]; [|discriminate].
      destruct (evalI A a2 b) as [y|] eqn:E2; cbn [bind]; [|discriminate]. intros [= <-]. cbn [evalE].
      cbn [fvE] in Hfv. specialize (H1 (fun v Hv => Hfv v (in_or_app _ _ _ (or_introl Hv))) F1 D1 _ eq_refl).
      specialize (H2 (fun v Hv => Hfv v (in_or_app _ _ _ (or_intror Hv))) F2 D2 _ eq_refl).
      destruct o; [eapply ok_div|eapply pow_eval_mem|eapply ok_atan2|eapply ok_min|eapply ok_max]; eauto.
      eapply evalI_ok; eauto.
    - discriminate.
    - discriminate.
  Qed.
  Lemma evalI_encl b rho : box_ok b -> in_box rho b -> forall e,
    (forall v, In v (fvE e) -> In v (bvars b)) -> finE e -> defE M D e rho ->
    forall i, evalI A e b = Some i -> imem (evalE M e rho) i.
  Proof. intros K HB e Hv. apply evalI_encl_on; auto. intros v H. apply b_getv_mem; auto. Qed.

  (** Evaluation raises an exception exactly on if-then-else and uninterpreted functions. *)
  Fixpoint evaluable (e : expr) : bool :=
    match e with
    | EConst _ | EReal _ _ _ | EVar _ => true
    | EAdd _ ts => forallb (fun p => match p with (a, _) => evaluable a end) ts
    | EMul _ ts => forallb (fun p => match p with (a, x) => evaluable a && evaluable x end) ts
    | EUn _ a => evaluable a
    | EBin _ a1 a2 => evaluable a1 && evaluable a2
    | EIte _ _ _ | EUf _ _ => false
    end.
  Lemma evalI_total b : forall e, (exists i, evalI A e b = Some i) <-> evaluable e = true.
  Proof.
    apply (expr_ind2 (fun e => (exists i, evalI A e b = Some i) <-> evaluable e = true) (fun _ => True)); auto; cbn [evalI evaluable].
    - intros; split; eauto.
    - intros; split; eauto.
    - intros; split; eauto.
    - intros c ts Hts. generalize (i_point c) as i0.
      induction Hts as [|[a k] ts Ha Hts IH]; intros i0; cbn [fold_left forallb]; [split; eauto|].
      cbn [bind fst] in *. rewrite andb_true_iff, <- Ha. destruct (evalI A a b) as [x|]; cbn [bind].
      + rewrite IH. split; [eauto|tauto].
      + split; [|intros [[? ?] ?]; discriminate]. intros [i E]. exfalso. clear -E. induction ts as [|[a' k'] ts IH]; cbn in E; [discriminate|auto].
    - intros c ts Hts. generalize (i_point c) as i0.
      induction Hts as [|[a k] ts [Ha Hk] Hts IH]; intros i0; cbn [fold_left forallb]; [split; eauto|].
      cbn [bind fst snd] in *. rewrite !andb_true_iff, <- Ha, <- Hk. destruct (evalI A a b) as [x|]; cbn [bind]; [destruct (evalI A k b) as [y|]; cbn [bind]|].
      + rewrite IH. split; [eauto|tauto].
      + split; [|intros [[? [? ?]] ?]; discriminate]. intros [i E]. exfalso. clear -E. induction ts as [|[a' k'] ts IH]; cbn in E; [discriminate|auto].
      + split; [|intros [[[? ?] ?] ?]; discriminate]. intros [i E]. exfalso. clear -E. induction ts as [|[a' k'] ts IH]; cbn in E; [discriminate|auto].
    - intros o a Ha. rewrite <- Ha. destruct (evalI A a b); cbn [bind]; split; eauto; intros [? ?]; discriminate.
    - intros o a1 a2 H1 H2. rewrite andb_true_iff, <- H1, <- H2. destruct (evalI A a1 b); cbn [bind]; [destruct (evalI A a2 b); cbn [bind]|].
      + split; eauto.
      + split; [intros [? ?]; discriminate|intros [_ [? ?]]; discriminate].
      + split; [intros [? ?]; discriminate|intros [[? ?] _]; discriminate].
    - intros; split; [intros [? ?]; discriminate|discriminate].
    - intros; split; [intros [? ?]; discriminate|discriminate].
  Qed.
End Eval.

(** ** diam() bounds the width *)
Lemma i_diam_width l u d : i_ok (IV l u) -> is_finite d = true -> dgt (i_diam (IV l u)) d = false ->
  is_finite l = true /\ is_finite u = true /\ B2R u - B2R l <= B2R d.
Proof.
  intros K Fd H. pose proof K as (Kle & K1 & K2). destruct (i_ok_nan _ _ K) as [Nl Nu]. cbn [i_diam] in H. unfold dgt in H.
  destruct (is_finite l) eqn:Fl, (is_finite u) eqn:Fu.
  - split; auto. split; auto. pose proof (Bminus_correct prec64 emax64 _ _ mode_UP u l Fu Fl) as C.
    set (x := B2R u - B2R l) in *. cbn [round_mode] in C.
    pose proof (round_UP_pt radix2 (SpecFloat.fexp prec64 emax64) x) as (_ & Hge & _).
    destruct (Rlt_bool (Rabs (round radix2 (SpecFloat.fexp prec64 emax64) Zceil x)) (bpow radix2 emax64)) eqn:E.
    + destruct C as (C1 & C2 & _). change (dlt d (Bminus mode_UP u l) = false) in H.
      rewrite dlt_dle in H by (try (destruct d; auto; discriminate); destruct (Bminus mode_UP u l); auto; discriminate).
      apply negb_false_iff in H. apply dle_true in H. rewrite (finite_d2e _ Fd), (finite_d2e _ C2) in H. cbn in H.
      cbn [round_mode] in C1. rewrite C1 in H. lra.
    + destruct C as [C _]. exfalso.
      assert (Hx : 0 <= x). { apply dle_true in Kle. rewrite (finite_d2e _ Fl), (finite_d2e _ Fu) in Kle. cbn in Kle. unfold x; lra. }
      assert (Hs : Bsign u = negb (Bsign l) \/ (0 <= x)) by auto.
      assert (Ex : B2SF (Bminus mode_UP u l) = B2SF (@B754_infinity prec64 emax64 false)).
      { rewrite C. unfold binary_overflow. cbn. 
        destruct (Bsign u) eqn:Su; [|reflexivity]. exfalso.
        (* u negative: then the difference is at most |l|, no overflow *)
        assert (Bu : B2R u <= 0). { destruct u as [s| | |s m e ?]; cbn in Su; subst; try discriminate; cbn; try lra.
          apply F2R_le_0. cbn. lia. }
        assert (E' : ~ Rabs (round radix2 (SpecFloat.fexp prec64 emax64) Zceil x) < bpow radix2 emax64) by (intros L; apply Rlt_bool_true in L; congruence).
        assert (Bx : 0 <= x <= - B2R l) by (unfold x in *; lra).
        assert (Hr : round radix2 (SpecFloat.fexp prec64 emax64) Zceil x <= - B2R l).
        { apply round_le_generic; [apply (fexp_correct prec64 emax64 _)|apply valid_rnd_UP|apply generic_format_opp, dbl_format|lra]. }
        assert (Hr0 : 0 <= round radix2 (SpecFloat.fexp prec64 emax64) Zceil x).
        { apply round_ge_generic; [apply (fexp_correct prec64 emax64 _)|apply valid_rnd_UP|apply generic_format_0|lra]. }
        rewrite Rabs_pos_eq in E' by auto.
        pose proof (abs_B2R_lt_emax prec64 emax64 l) as Hl. unfold Rabs in Hl. destruct (Rcase_abs (B2R l)); lra. }
      apply B2SF_inj in Ex. rewrite Ex in H. destruct d as [| | |s m e]; cbn in H; try discriminate.
  - exfalso. destruct u as [|[]| |]; try discriminate.
    destruct l as [| | |]; try discriminate; destruct d as [| | |]; try discriminate.
  - exfalso. destruct l as [|[]| |]; try discriminate. destruct u as [| | |]; try discriminate; destruct d as [| | |]; try discriminate.
  - exfalso. destruct l as [|[]| |]; try discriminate; destruct u as [|[]| |]; try discriminate; destruct d as [| | |]; try discriminate.
Qed.

Section Rel.
  Variables (M : interp) (D : pdom).

  Lemma relR_neg o a b : relR (relop_neg o) a b <-> ~ relR o a b.
  Proof. destruct o; cbn; lra. Qed.
  Lemma relop_neg_invol o : relop_neg (relop_neg o) = o. Proof. destruct o; reflexivity. Qed.

  Lemma lit_holds f o a b rho : lit_op f = Some o -> lit_sides f = Some (a, b) ->
    (holds M f rho <-> relR o (evalE M a rho) (evalE M b rho)) /\ (defF M D f rho <-> defE M D a rho /\ defE M D b rho) /\
    fvF f = fvE a ++ fvE b.
  Proof.
    revert o. induction f using formula_ind'; cbn [lit_op lit_sides]; intros o' E1 E2; try discriminate.
    - injection E1 as <-. injection E2 as <- <-. cbn. tauto.
    - destruct (lit_op f) as [o1|]; [|discriminate]. injection E1 as <-. destruct (IHf _ eq_refl E2) as (P & Q & S).
      cbn [holds defF fvF]. rewrite relR_neg, P, S. tauto.
  Qed.
  Lemma lit_weak delta f o a b rho : lit_op f = Some o -> lit_sides f = Some (a, b) ->
    (weak M delta true f rho <-> weakR delta o (evalE M a rho) (evalE M b rho)) /\
    (weak M delta false f rho <-> weakR delta (relop_neg o) (evalE M a rho) (evalE M b rho)).
  Proof.
    revert o. induction f using formula_ind'; cbn [lit_op lit_sides]; intros o' E1 E2; try discriminate.
    - injection E1 as <-. injection E2 as <- <-. cbn. tauto.
    - destruct (lit_op f) as [o1|]; [|discriminate]. injection E1 as <-. destruct (IHf _ eq_refl E2) as (P & Q).
      cbn [weak negb]. rewrite relop_neg_invol. tauto.
  Qed.

  Lemma dzero_R : d2e dzero = Fin 0. Proof. reflexivity. Qed.

  Ltac fin_d := repeat match goal with
    | H : (_ && _)%bool = true |- _ => apply andb_true_iff in H; destruct H
    | H : (_ || _)%bool = true |- _ => apply orb_true_iff in H; destruct H
    | H : (_ || _)%bool = false |- _ => apply orb_false_iff in H; destruct H
    end.

  Lemma rel_dec_sound o i x : i_ok i -> imem x i ->
    (rel_dec o i = VALID -> relR o x 0) /\ (rel_dec o i = UNSAT -> ~ relR o x 0) /\
    (rel_dec o i = UNKNOWN -> forall d, is_finite d = true -> dgt (i_diam i) d = false -> weakR (B2R d) o x 0).
  Proof.
    intros K Hx. destruct i as [|l u]; [contradiction|]. destruct (i_ok_nan _ _ K) as [Nl Nu].
    cbn [imem] in Hx. destruct Hx as [Hl Hu].
    assert (Zl : forall y, is_nan y = false -> dlt y dzero = true <-> ext_lt (d2e y) (Fin 0)) by (intros; rewrite dlt_spec; auto; reflexivity).
    assert (Zg : forall y, is_nan y = false -> dgt y dzero = true <-> ext_lt (Fin 0) (d2e y)) by (intros y Hy; unfold dgt; change Bltb with dlt; rewrite dlt_spec; auto; reflexivity).
    assert (Zle : forall y, is_nan y = false -> dle y dzero = true <-> ext_le (d2e y) (Fin 0)) by (intros; rewrite dle_spec; auto; reflexivity).
    assert (Zge : forall y, is_nan y = false -> dge y dzero = true <-> ext_le (Fin 0) (d2e y)) by (intros y Hy; unfold dge; change Bleb with dle; rewrite dle_spec; auto; reflexivity).
    assert (Zeq : forall y, is_nan y = false -> deq y dzero = true <-> d2e y = Fin 0) by (intros; rewrite deq_spec; auto; reflexivity).
    assert (W : forall d, is_finite d = true -> dgt (i_diam (IV l u)) d = false ->
       exists a b, d2e l = Fin a /\ d2e u = Fin b /\ a <= x <= b /\ b - a <= B2R d).
    { intros d Fd Hd. destruct (i_diam_width l u d K Fd Hd) as (Fl & Fu & Hw). exists (B2R l), (B2R u).
      rewrite (finite_d2e _ Fl), (finite_d2e _ Fu) in *. cbn in Hl, Hu. repeat split; auto; lra. }
    assert (T : forall b : bool, b = true \/ b = false) by (intros []; auto).
    destruct o; cbn [rel_dec ilb iub i_contains]; cbv zeta.
    - destruct (deq l dzero && deq u dzero) eqn:E1.
      + fin_d. apply (Zeq l Nl) in H. apply (Zeq u Nu) in H0. rewrite H in Hl. rewrite H0 in Hu. cbn in *.
        split; [intros _; lra|split; discriminate].
      + change dle with (fun a b => dle a b). destruct (negb (dle l dzero && dle dzero u)) eqn:E2.
        * split; [discriminate|]. split; [|discriminate]. intros _ Ex. cbn in Ex. subst x. apply negb_true_iff in E2.
          assert (dle l dzero = true) by (apply Zle; auto). assert (dle dzero u = true) by (apply (Zge u Nu); auto).
          rewrite H, H0 in E2. discriminate.
        * split; [discriminate|]. split; [discriminate|]. intros _ d Fd Hd. destruct (W d Fd Hd) as (a & b & El & Eu & Hab & Hw).
          apply negb_false_iff in E2. fin_d. apply (Zle l Nl) in H. apply (Zge u Nu) in H0. rewrite El in H. rewrite Eu in H0. cbn in *.
          apply Rabs_le. lra.
    - destruct (dlt u dzero || dgt l dzero) eqn:E1; [|destruct (deq u dzero && deq l dzero) eqn:E2].
      + split; [intros _|split; discriminate]. apply orb_true_iff in E1. destruct E1 as [E|E].
        * apply (Zl u Nu) in E. cbn. pose proof (ext_le_lt_trans _ _ _ Hu E) as X. apply ext_lt_fin in X. lra.
        * apply (Zg l Nl) in E. cbn. pose proof (ext_lt_le_trans _ _ _ E Hl) as X. apply ext_lt_fin in X. lra.
      + split; [discriminate|]. split; [|discriminate]. intros _. fin_d. apply (Zeq l Nl) in H0. apply (Zeq u Nu) in H.
        rewrite H0 in Hl. rewrite H in Hu. cbn in *. lra.
      + split; [discriminate|]. split; [discriminate|]. intros; exact I.
    - destruct (dgt l dzero) eqn:E1; [|destruct (dle u dzero) eqn:E2].
      + split; [intros _|split; discriminate]. apply (Zg l Nl) in E1. cbn. pose proof (ext_lt_le_trans _ _ _ E1 Hl) as X. apply ext_lt_fin in X. lra.
      + split; [discriminate|]. split; [|discriminate]. intros _. apply (Zle u Nu) in E2. pose proof (ext_le_trans _ _ _ Hu E2) as X. cbn in *. lra.
      + split; [discriminate|]. split; [discriminate|]. intros _ d Fd Hd. destruct (W d Fd Hd) as (a & b & El & Eu & Hab & Hw).
        assert (X : ~ ext_le (d2e u) (Fin 0)) by (intros C; apply (Zle u Nu) in C; congruence). rewrite Eu in X. cbn in *. lra.
    - destruct (dge l dzero) eqn:E1; [|destruct (dlt u dzero) eqn:E2].
      + split; [intros _|split; discriminate]. apply (Zge l Nl) in E1. pose proof (ext_le_trans _ _ _ E1 Hl) as X. cbn in *. lra.
      + split; [discriminate|]. split; [|discriminate]. intros _. apply (Zl u Nu) in E2. pose proof (ext_le_lt_trans _ _ _ Hu E2) as X. apply ext_lt_fin in X. cbn. lra.
      + split; [discriminate|]. split; [discriminate|]. intros _ d Fd Hd. destruct (W d Fd Hd) as (a & b & El & Eu & Hab & Hw).
        assert (X : ~ ext_lt (d2e u) (Fin 0)) by (intros C; apply (Zl u Nu) in C; congruence). rewrite Eu, ext_lt_fin in X. cbn in *. lra.
    - destruct (dlt u dzero) eqn:E1; [|destruct (dge l dzero) eqn:E2].
      + split; [intros _|split; discriminate]. apply (Zl u Nu) in E1. pose proof (ext_le_lt_trans _ _ _ Hu E1) as X. apply ext_lt_fin in X. cbn. lra.
      + split; [discriminate|]. split; [|discriminate]. intros _. apply (Zge l Nl) in E2. pose proof (ext_le_trans _ _ _ E2 Hl) as X. cbn in *. lra.
      + split; [discriminate|]. split; [discriminate|]. intros _ d Fd Hd. destruct (W d Fd Hd) as (a & b & El & Eu & Hab & Hw).
        assert (X : ~ ext_le (Fin 0) (d2e l)) by (intros C; apply (Zge l Nl) in C; congruence). rewrite El in X. cbn in *. lra.
    - destruct (dle u dzero) eqn:E1; [|destruct (dgt l dzero) eqn:E2].
      + split; [intros _|split; discriminate]. apply (Zle u Nu) in E1. pose proof (ext_le_trans _ _ _ Hu E1) as X. cbn in *. lra.
      + split; [discriminate|]. split; [|discriminate]. intros _. apply (Zg l Nl) in E2. pose proof (ext_lt_le_trans _ _ _ E2 Hl) as X. apply ext_lt_fin in X. cbn. lra.
      + split; [discriminate|]. split; [discriminate|]. intros _ d Fd Hd. destruct (W d Fd Hd) as (a & b & El & Eu & Hab & Hw).
        assert (X : ~ ext_lt (Fin 0) (d2e l)) by (intros C; apply (Zg l Nl) in C; congruence). rewrite El, ext_lt_fin in X. cbn in *. lra.
  Qed.

  Variable A : iarith.
  Variable esub : expr -> expr -> expr.
  Hypothesis HA : ia_ok M D A.
  Hypothesis Hrc : rc_ok M.

  Lemma rel_eval_sound_on f b t i : box_ok b ->
    (forall e1 e2, lit_sides f = Some (e1, e2) -> esub_faithful M D esub e1 e2) ->
    rel_eval A esub f b = Some (t, i) ->
    i_ok i /\ forall rho, (forall v, In v (fvF f) -> imem (rho v) (b_getv b v)) -> defF M D f rho ->
    (t = VALID -> holds M f rho) /\ (t = UNSAT -> ~ holds M f rho) /\
    (t = UNKNOWN -> forall d, is_finite d = true -> dgt (i_diam i) d = false -> weak M (B2R d) true f rho).
  Proof.
    intros K Hs. unfold rel_eval. destruct (lit_op f) as [o|] eqn:Eo; cbn [bind]; [|discriminate].
    destruct (lit_sides f) as [[a c]|] eqn:Es; cbn [bind fst snd]; [|discriminate].
    destruct (evalI A (esub a c) b) as [j|] eqn:Ei; cbn [bind]; [|discriminate]. intros [= <- <-].
    pose proof (evalI_ok _ _ _ HA _ K _ _ Ei) as Kj. split; auto. intros rho HB HD.
    destruct (lit_holds f o a c rho Eo Es) as (P & Q & S).
    destruct (Hs _ _ eq_refl) as (Fs & Vs & Ds). apply Q in HD. destruct HD as [D1 D2]. destruct (Ds rho D1 D2) as [D3 Ev].
    assert (Hm : imem (evalE M a rho - evalE M c rho) j).
    { rewrite <- Ev. eapply evalI_encl_on; eauto. intros v Hv. apply HB. rewrite S. auto. }
    destruct (rel_dec_sound o j _ Kj Hm) as (R1 & R2 & R3). rewrite P.
    assert (Z : forall x y, relR o (x - y) 0 <-> relR o x y) by (intros; destruct o; cbn; lra).
    split; [|split].
    - intros E. apply Z. auto.
    - intros E H. apply (R2 E). apply Z. auto.
    - intros E d Fd Hd. apply (lit_weak (B2R d) f o a c rho Eo Es). specialize (R3 E d Fd Hd).
      destruct o; cbn in *; rewrite ?Rminus_0_r in R3; auto.
  Qed.
  Lemma rel_eval_sound f b t i : box_ok b -> (forall v, In v (fvF f) -> In v (bvars b)) ->
    (forall e1 e2, lit_sides f = Some (e1, e2) -> esub_faithful M D esub e1 e2) ->
    rel_eval A esub f b = Some (t, i) ->
    i_ok i /\ forall rho, in_box rho b -> defF M D f rho ->
    (t = VALID -> holds M f rho) /\ (t = UNSAT -> ~ holds M f rho) /\
    (t = UNKNOWN -> forall d, is_finite d = true -> dgt (i_diam i) d = false -> weak M (B2R d) true f rho).
  Proof.
    intros K Hfv Hs E. destruct (rel_eval_sound_on f b t i K Hs E) as [H1 H2]. split; auto. intros rho HB. apply H2. intros v Hv. apply b_getv_mem; auto.
  Qed.
End Rel.
