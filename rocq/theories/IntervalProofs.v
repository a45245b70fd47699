From Coq Require Import ZArith Reals Lra Lia List Bool.
From Flocq Require Import Core.Core IEEE754.BinarySingleNaN.
From Verif Require Import Dbl DblProofs Syntax Sem Interval.
Import ListNotations.
Local Open Scope R_scope.

Lemma deq_inf_false_l l : is_nan l = false -> deq l dpinf = false <-> d2e l <> PInf.
Proof. destruct l as [|[]| |[]]; cbn; intros; split; intros; try congruence; auto. Qed.
Lemma deq_ninf_false u : is_nan u = false -> deq u dninf = false <-> d2e u <> NInf.
Proof. destruct u as [|[]| |[]]; cbn; intros; split; intros; try congruence; auto. Qed.

Lemma mk_ival_mem x l u : is_nan l = false -> is_nan u = false ->
  (imem x (mk_ival l u) <-> ext_le (d2e l) (Fin x) /\ ext_le (Fin x) (d2e u)).
Proof.
  intros Nl Nu. unfold mk_ival. destruct (dle l u) eqn:E; cbn.
  - destruct (deq l dpinf) eqn:E1; cbn.
    + split; [tauto|]. apply deq_true in E1. rewrite E1. cbn. tauto.
    + destruct (deq u dninf) eqn:E2; cbn; [|tauto]. split; [tauto|]. apply deq_true in E2. rewrite E2. cbn. tauto.
  - split; [tauto|]. intros [A B]. apply dle_false in E; auto. apply E. eapply ext_le_trans; eauto.
Qed.
Lemma mk_ival_mem_imp x l u : imem x (mk_ival l u) -> ext_le (d2e l) (Fin x) /\ ext_le (Fin x) (d2e u).
Proof. unfold mk_ival. destruct (dle l u && _ && _); cbn; tauto. Qed.
Lemma mk_ival_ok l u : i_ok (mk_ival l u).
Proof.
  unfold mk_ival. destruct (dle l u) eqn:A, (deq l dpinf) eqn:B, (deq u dninf) eqn:C; cbn; auto.
Qed.
Lemma mk_ival_nonempty l u : i_empty (mk_ival l u) = false -> mk_ival l u = IV l u.
Proof. unfold mk_ival. destruct (dle l u && _ && _); cbn; congruence. Qed.
Lemma mk_ival_id l u : i_ok (IV l u) -> mk_ival l u = IV l u.
Proof. intros (A & B & C). unfold mk_ival. now rewrite A, B, C. Qed.
Lemma i_ok_nan l u : i_ok (IV l u) -> is_nan l = false /\ is_nan u = false.
Proof. intros (A & _). now apply dle_not_nan. Qed.

Lemma imem_nonempty x i : imem x i -> i_empty i = false.
Proof. destruct i; cbn; tauto. Qed.
Lemma i_all_mem x : imem x i_all. Proof. cbn; auto. Qed.

Lemma dmaxf_nan x y : is_nan x = false -> is_nan y = false -> is_nan (dmaxf x y) = false.
Proof. unfold dmaxf; destruct (dlt x y); auto. Qed.
Lemma dminf_nan x y : is_nan x = false -> is_nan y = false -> is_nan (dminf x y) = false.
Proof. unfold dminf; destruct (dlt y x); auto. Qed.
Lemma dmaxf_le x y z : is_nan x = false -> is_nan y = false ->
  (ext_le (d2e (dmaxf x y)) z <-> ext_le (d2e x) z /\ ext_le (d2e y) z).
Proof.
  intros Nx Ny. unfold dmaxf. destruct (dlt x y) eqn:E.
  - apply dlt_true, ext_lt_le in E. split; [|tauto]. intros H; split; auto. eapply ext_le_trans; eauto.
  - rewrite dlt_dle in E by auto. apply negb_false_iff, dle_true in E. split; [|tauto]. intros H; split; auto. eapply ext_le_trans; eauto.
Qed.
Lemma dminf_ge x y z : is_nan x = false -> is_nan y = false ->
  (ext_le z (d2e (dminf x y)) <-> ext_le z (d2e x) /\ ext_le z (d2e y)).
Proof.
  intros Nx Ny. unfold dminf. destruct (dlt y x) eqn:E.
  - apply dlt_true, ext_lt_le in E. split; [|tauto]. intros H; split; auto. eapply ext_le_trans; eauto.
  - rewrite dlt_dle in E by auto. apply negb_false_iff, dle_true in E. split; [|tauto]. intros H; split; auto. eapply ext_le_trans; eauto.
Qed.
Lemma dmaxf_ge x y z : is_nan x = false -> is_nan y = false ->
  (ext_le z (d2e x) \/ ext_le z (d2e y) -> ext_le z (d2e (dmaxf x y))).
Proof.
  intros Nx Ny. unfold dmaxf. destruct (dlt x y) eqn:E.
  - apply dlt_true, ext_lt_le in E. intros [H|H]; auto. eapply ext_le_trans; eauto.
  - rewrite dlt_dle in E by auto. apply negb_false_iff, dle_true in E. intros [H|H]; auto. eapply ext_le_trans; eauto.
Qed.
Lemma dminf_le x y z : is_nan x = false -> is_nan y = false ->
  (ext_le (d2e x) z \/ ext_le (d2e y) z -> ext_le (d2e (dminf x y)) z).
Proof.
  intros Nx Ny. unfold dminf. destruct (dlt y x) eqn:E.
  - apply dlt_true, ext_lt_le in E. intros [H|H]; auto. eapply ext_le_trans; eauto.
  - rewrite dlt_dle in E by auto. apply negb_false_iff, dle_true in E. intros [H|H]; auto. eapply ext_le_trans; eauto.
Qed.

Lemma i_inter_mem x a b : i_ok a -> i_ok b -> (imem x (i_inter a b) <-> imem x a /\ imem x b).
Proof.
  destruct a as [|l u], b as [|l' u']; cbn [i_inter imem]; try tauto.
  intros Ka Kb. destruct (i_ok_nan _ _ Ka), (i_ok_nan _ _ Kb).
  rewrite mk_ival_mem by auto using dmaxf_nan, dminf_nan. rewrite dmaxf_le, dminf_ge by auto. tauto.
Qed.
Lemma i_inter_ok a b : i_ok (i_inter a b).
Proof. destruct a, b; cbn [i_inter]; auto using mk_ival_ok; exact I. Qed.

Lemma i_hull_mem x a b : i_ok a -> i_ok b -> imem x a \/ imem x b -> imem x (i_hull a b).
Proof.
  destruct a as [|l u], b as [|l' u']; cbn [i_hull imem]; try tauto.
  intros Ka Kb. destruct (i_ok_nan _ _ Ka), (i_ok_nan _ _ Kb).
  intros [[A B]|[A B]]; split; auto using dminf_le, dmaxf_ge.
Qed.

Lemma d2e_eq_deq x y : is_nan x = false -> is_nan y = false -> (deq x y = true <-> d2e x = d2e y).
Proof. intros; now apply deq_spec. Qed.

Lemma i_hull_ok a b : i_ok a -> i_ok b -> i_ok (i_hull a b).
Proof.
  destruct a as [|l u], b as [|l' u']; cbn [i_hull]; auto.
  intros Ka Kb. destruct (i_ok_nan _ _ Ka) as [N1 N2], (i_ok_nan _ _ Kb) as [N3 N4].
  destruct Ka as (A1 & A2 & A3), Kb as (B1 & B2 & B3). split; [|split].
  - apply dle_spec; auto using dminf_nan, dmaxf_nan. apply dminf_le; auto. left.
    apply dmaxf_ge; auto. left. now apply dle_true.
  - unfold dminf. destruct (dlt l' l); auto.
  - unfold dmaxf. destruct (dlt u u'); auto.
Qed.

(** ** list updates *)
Lemma upd_nth_length {A} n (x : A) l : length (upd_nth n x l) = length l.
Proof. revert n; induction l; intros [|n]; simpl; auto. Qed.
Lemma nth_upd_nth_eq {A} n (x d : A) l : (n < length l)%nat -> nth n (upd_nth n x l) d = x.
Proof. revert n; induction l; intros [|n]; simpl; intros; auto; try lia. apply IHl; lia. Qed.
Lemma nth_upd_nth_ne {A} n m (x d : A) l : n <> m -> nth m (upd_nth n x l) d = nth m l d.
Proof. revert n m; induction l; intros [|n] [|m]; simpl; intros; auto; try lia. Qed.
Lemma upd_nth_oob {A} n (x : A) l : (length l <= n)%nat -> upd_nth n x l = l.
Proof. revert n; induction l; intros [|n]; simpl; intros; auto; try lia. f_equal; apply IHl; lia. Qed.
Lemma Forall_upd_nth {A} (P : A -> Prop) n x l : Forall P l -> P x -> Forall P (upd_nth n x l).
Proof. intros H Hx; revert n; induction H; intros [|n]; simpl; constructor; auto. Qed.
Lemma upd_nth_same {A} n (d : A) l : (n < length l)%nat -> upd_nth n (nth n l d) l = l.
Proof. revert n; induction l; intros [|n]; simpl; intros; auto; try lia. f_equal; apply IHl; lia. Qed.
Lemma upd_nth_twice {A} n (x y : A) l : upd_nth n x (upd_nth n y l) = upd_nth n x l.
Proof. revert n; induction l; intros [|n]; simpl; intros; auto. now rewrite IHl. Qed.

(** ** boxes *)
Lemma b_get_set_eq b i x : (i < length (bvals b))%nat -> b_get (b_set b i x) i = x.
Proof. apply nth_upd_nth_eq. Qed.
Lemma b_get_set_ne b i j x : i <> j -> b_get (b_set b i x) j = b_get b j.
Proof. apply nth_upd_nth_ne. Qed.
Lemma b_empty_get b : b_empty b = i_empty (b_get b 0).
Proof. reflexivity. Qed.
Lemma box_ok_len b i v : box_ok b -> nth_error (bvars b) i = Some v -> (i < length (bvals b))%nat.
Proof. intros (_ & L & _) H. assert (i < length (bvars b))%nat by (apply nth_error_Some; congruence). lia. Qed.
Lemma box_ok_get b i : box_ok b -> i_ok (b_get b i).
Proof.
  intros (_ & _ & F). unfold b_get. destruct (nth_in_or_default i (bvals b) IEmpty) as [H|H].
  - rewrite Forall_forall in F; auto.
  - rewrite H. exact I.
Qed.
Lemma b_set_ok b i x : box_ok b -> i_ok x -> box_ok (b_set b i x).
Proof. intros (N & L & F) K. split; [exact N|]. split; simpl; [now rewrite upd_nth_length|]. now apply Forall_upd_nth. Qed.

Lemma in_box_comp rho b i v : in_box rho b -> nth_error (bvars b) i = Some v -> imem (rho v) (b_get b i).
Proof. intros [_ H]; apply H. Qed.
(** Narrowing component [i] of variable [v]. *)
Lemma in_box_set rho b i v x : box_ok b -> nth_error (bvars b) i = Some v ->
  (in_box rho (b_set b i x) <->
   imem (rho v) x /\ forall j w, j <> i -> nth_error (bvars b) j = Some w -> imem (rho w) (b_get b j)).
Proof.
  intros K E. pose proof (box_ok_len b i v K E) as Li. split.
  - intros [He H]. split.
    + specialize (H i v E). rewrite b_get_set_eq in H; auto.
    + intros j w N Ej. specialize (H j w Ej). rewrite b_get_set_ne in H; auto.
  - intros [Hx H]. split.
    + rewrite b_empty_get. destruct (Nat.eq_dec i 0) as [->|N].
      * rewrite b_get_set_eq by auto. now apply imem_nonempty in Hx.
      * rewrite b_get_set_ne by auto. destruct (bvars b) as [|w ws] eqn:Eb; [destruct i; discriminate|].
        apply (imem_nonempty (rho w)). apply H; auto.
    + intros j w Ej. simpl in Ej. destruct (Nat.eq_dec i j) as [<-|N].
      * rewrite b_get_set_eq by auto. congruence.
      * rewrite b_get_set_ne by auto. apply H; auto.
Qed.
Lemma in_box_set_sub rho b i v x : box_ok b -> nth_error (bvars b) i = Some v ->
  (imem (rho v) x -> imem (rho v) (b_get b i)) -> in_box rho (b_set b i x) -> in_box rho b.
Proof.
  intros K E Hx H. apply (in_box_set rho b i v x K E) in H. destruct H as [A B].
  assert (G : forall j w, nth_error (bvars b) j = Some w -> imem (rho w) (b_get b j)).
  { intros j w Ej. destruct (Nat.eq_dec j i) as [->|N]; [|now apply B]. rewrite E in Ej. injection Ej as <-. auto. }
  split; [|exact G]. rewrite b_empty_get. destruct (bvars b) as [|w ws] eqn:Eb; [destruct i; discriminate|].
  apply (imem_nonempty (rho w)). apply G; auto.
Qed.
Lemma in_box_set_mem rho b i v x : box_ok b -> nth_error (bvars b) i = Some v ->
  in_box rho b -> imem (rho v) x -> in_box rho (b_set b i x).
Proof. intros K E [He H] Hx. apply (in_box_set rho b i v x K E). split; auto. Qed.

Lemma b_set_empty_none rho b : in_box rho (b_set_empty b) -> False.
Proof. intros [H _]. unfold b_empty, b_set_empty in H. simpl in H. destruct (bvals b); discriminate. Qed.
Lemma b_set_empty_ok b : box_ok b -> box_ok (b_set_empty b).
Proof.
  intros (N & L & F). split; [exact N|]. simpl. rewrite map_length. split; auto.
  apply Forall_forall. intros x Hx. apply in_map_iff in Hx. destruct Hx as (? & <- & _). exact I.
Qed.
Lemma b_empty_none rho b : b_empty b = true -> in_box rho b -> False.
Proof. intros E [H _]; congruence. Qed.

Lemma index_of_nth v l i : index_of v l = Some i -> nth_error l i = Some v.
Proof.
  revert i; induction l as [|w l IH]; simpl; intros i H; [discriminate|].
  destruct (var_eqb v w) eqn:E.
  - injection H as <-. apply var_eqb_eq in E. now subst.
  - destruct (index_of v l) as [j|]; [|discriminate]. injection H as <-. simpl; auto.
Qed.
Lemma index_of_In v l : In v l -> exists i, index_of v l = Some i.
Proof.
  induction l as [|w l IH]; simpl; [tauto|]. intros H. destruct (var_eqb v w) eqn:E; [eauto|].
  destruct H as [->|H]; [rewrite var_eqb_refl in E; discriminate|]. destruct (IH H) as (i & ->). simpl; eauto.
Qed.
Lemma index_of_None v l : index_of v l = None <-> ~ In v l.
Proof.
  split.
  - intros H C. destruct (index_of_In v l C); congruence.
  - intros H. destruct (index_of v l) eqn:E; auto. exfalso. apply H. apply index_of_nth in E. eapply nth_error_In; eauto.
Qed.

(** ** Bisection *)
Lemma one_R : B2R (dZ 1) = 1. Proof. unfold dZ, mkd. cbn. unfold F2R; simpl. lra. Qed.
Lemma one_fin : is_finite (dZ 1) = true. Proof. reflexivity. Qed.

Lemma dadd_correct x y : is_finite x = true -> is_finite y = true ->
  Rabs (round radix2 (SpecFloat.fexp prec64 emax64) ZnearestE (B2R x + B2R y)) < bpow radix2 emax64 ->
  B2R (dadd x y) = round radix2 (SpecFloat.fexp prec64 emax64) ZnearestE (B2R x + B2R y) /\
  is_finite (dadd x y) = true.
Proof.
  intros Fx Fy H. pose proof (Bplus_correct prec64 emax64 _ _ mode_NE x y Fx Fy) as C.
  cbn [round_mode] in C. rewrite Rlt_bool_true in C by exact H. split; apply C.
Qed.

Lemma int_in_format (z : Z) : (Z.abs z <= 2 ^ 53)%Z -> dfmt (IZR z).
Proof.
  intros H. destruct (Z.eq_dec (Z.abs z) (2 ^ 53)) as [E|E].
  - assert (B : IZR (2 ^ 53) = bpow radix2 53) by (rewrite (IZR_Zpower radix2); [reflexivity|lia]).
    assert (G : dfmt (bpow radix2 53)).
    { apply generic_format_bpow. unfold SpecFloat.fexp, SpecFloat.emin, prec64, emax64. lia. }
    assert (z = 2 ^ 53 \/ z = - 2 ^ 53)%Z as [->| ->] by lia.
    + now rewrite B.
    + rewrite opp_IZR, B. now apply generic_format_opp.
  - assert (L : (Z.abs z < 2 ^ 53)%Z) by lia. clear E H.
    apply (generic_format_FLT radix2 (SpecFloat.emin prec64 emax64) prec64).
    exists (Float radix2 z 0); simpl; auto.
    + unfold F2R; simpl. lra.
    + unfold SpecFloat.emin, prec64, emax64. lia.
Qed.
Lemma bpow64_big : 9007199254740993 < bpow radix2 emax64.
Proof.
  apply Rlt_le_trans with (bpow radix2 54).
  - simpl. lra.
  - apply bpow_le. unfold emax64. lia.
Qed.

(** floor(m) + 1 in binary64. *)
Lemma dadd_one_exact m : is_finite m = true -> Rabs (B2R m) <= 9007199254740991 ->
  is_finite (dadd (dfloor m) (dZ 1)) = true /\ B2R (dadd (dfloor m) (dZ 1)) = IZR (Zfloor (B2R m) + 1).
Proof.
  intros Fm B.
  assert (Bz : (Z.abs (Zfloor (B2R m)) <= 9007199254740991)%Z).
  { apply Rabs_le_inv in B. destruct B as [B1 B2]. apply Z.abs_le. split.
    - apply Zfloor_lub. exact B1.
    - apply le_IZR. eapply Rle_trans; [apply Zfloor_lb|exact B2]. }
  assert (Fmt : dfmt (IZR (Zfloor (B2R m) + 1))) by (apply int_in_format; lia).
  destruct (dadd_correct (dfloor m) (dZ 1)) as [R F].
  - now rewrite dfloor_fin.
  - reflexivity.
  - rewrite dfloor_R, one_R, <- plus_IZR, round_generic; auto with typeclass_instances.
    rewrite <- abs_IZR. eapply Rle_lt_trans; [|apply bpow64_big]. apply IZR_le. lia.
  - split; [exact F|]. rewrite R, dfloor_R, one_R, <- plus_IZR. apply round_generic; auto with typeclass_instances.
Qed.
(** Whatever its size, the second half starts at or above the midpoint. *)
Lemma dadd_one_ge m : is_finite m = true -> ext_le (d2e m) (d2e (dadd (dfloor m) (dZ 1))).
Proof.
  intros Fm. destruct (Rle_lt_dec (Rabs (B2R m)) 9007199254740991) as [L|G].
  - destruct (dadd_one_exact m Fm L) as [F R]. rewrite !finite_d2e by auto. cbn [ext_le]. rewrite R, plus_IZR.
    apply Rlt_le, Zfloor_ub.
  - pose proof (Bplus_correct prec64 emax64 _ _ mode_NE (dfloor m) (dZ 1)) as C.
    rewrite dfloor_fin in C. specialize (C Fm eq_refl). cbn [round_mode] in C. rewrite dfloor_R, one_R in C.
    set (r := round radix2 (SpecFloat.fexp prec64 emax64) ZnearestE (IZR (Zfloor (B2R m)) + 1)) in C.
    assert (Hr : B2R m <= r).
    { unfold r. rewrite <- (round_generic radix2 (SpecFloat.fexp prec64 emax64) ZnearestE (B2R m)) at 1 by apply dbl_format.
      apply round_le; [apply fexp_correct; exact prec64_gt_0|apply valid_rnd_N|]. apply Rlt_le. apply Zfloor_ub. }
    destruct (Rlt_bool_spec (Rabs r) (bpow radix2 emax64)) as [Hs|Hs].
    + destruct C as (R & F & _). change (Bplus mode_NE (dfloor m) (dZ 1)) with (dadd (dfloor m) (dZ 1)) in *.
      rewrite !finite_d2e by auto. cbn [ext_le]. unfold dadd in *. rewrite R. exact Hr.
    + destruct C as (O & S). change (Bplus mode_NE (dfloor m) (dZ 1)) with (dadd (dfloor m) (dZ 1)) in *.
      assert (Bsign (dfloor m) = false) as Sg.
      { rewrite S. reflexivity. }
      rewrite Sg in O. destruct (dadd (dfloor m) (dZ 1)) as [|[]| |]; cbn in O; try discriminate.
      destruct (d2e m); exact I.
Qed.

Lemma dfloor_nan m : is_finite m = true -> is_nan (dfloor m) = false.
Proof. intros F. assert (is_finite (dfloor m) = true) by now rewrite dfloor_fin. destruct (dfloor m); auto; discriminate. Qed.
Lemma dadd_one_nan m : is_finite m = true -> is_nan (dadd (dfloor m) (dZ 1)) = false.
Proof.
  intros F. unfold dadd. rewrite <- (dfloor_fin m) in F. 
  pose proof (Bplus_correct prec64 emax64 _ _ mode_NE (dfloor m) (dZ 1) F eq_refl) as C.
  destruct (Rlt_bool _ _).
  - destruct C as (_ & C & _). destruct (Bplus mode_NE (dfloor m) (dZ 1)); auto; discriminate.
  - destruct C as (C & _). destruct (Bplus mode_NE (dfloor m) (dZ 1)); auto.
    cbn in C. discriminate.
Qed.
Lemma dceil_nan l : is_nan l = false -> is_nan (dceil l) = false.
Proof.
  intros N. destruct l as [s|s| |s m e H] eqn:E; try discriminate; auto.
  rewrite <- E. assert (is_finite (dceil l) = true) by (rewrite dceil_fin; subst; reflexivity). destruct (dceil l); auto; discriminate.
Qed.
Lemma dfloor_nan' l : is_nan l = false -> is_nan (dfloor l) = false.
Proof.
  intros N. destruct l as [s|s| |s m e H] eqn:E; try discriminate; auto.
  rewrite <- E. assert (is_finite (dfloor l) = true) by (rewrite dfloor_fin; subst; reflexivity). destruct (dfloor l); auto; discriminate.
Qed.

Lemma dceil_le_int l z : is_nan l = false -> ext_le (d2e l) (Fin (IZR z)) -> ext_le (d2e (dceil l)) (Fin (IZR z)).
Proof.
  intros N H. destruct (is_finite l) eqn:F.
  - rewrite finite_d2e in * by (try rewrite dceil_fin; auto). simpl in *. rewrite dceil_R. apply IZR_le. now apply Zceil_glb.
  - destruct l as [|[]| |]; try discriminate; cbn in *; auto.
Qed.
Lemma dceil_ge l : is_nan l = false -> ext_le (d2e l) (d2e (dceil l)).
Proof.
  intros N. destruct (is_finite l) eqn:F.
  - rewrite !finite_d2e by (try rewrite dceil_fin; auto). simpl in *. rewrite dceil_R. apply Zceil_ub.
  - destruct l as [|[]| |]; try discriminate; cbn; auto.
Qed.
Lemma dfloor_ge_int l z : is_nan l = false -> ext_le (Fin (IZR z)) (d2e l) -> ext_le (Fin (IZR z)) (d2e (dfloor l)).
Proof.
  intros N H. destruct (is_finite l) eqn:F.
  - rewrite finite_d2e in * by (try rewrite dfloor_fin; auto). simpl in *. rewrite dfloor_R. apply IZR_le. now apply Zfloor_lub.
  - destruct l as [|[]| |]; try discriminate; cbn in *; auto.
Qed.
Lemma dfloor_le l : is_nan l = false -> ext_le (d2e (dfloor l)) (d2e l).
Proof.
  intros N. destruct (is_finite l) eqn:F.
  - rewrite !finite_d2e by (try rewrite dfloor_fin; auto). simpl in *. rewrite dfloor_R. apply Zfloor_lb.
  - destruct l as [|[]| |]; try discriminate; cbn; auto.
Qed.

Lemma typed_isint t x : t = INTEGER \/ t = BINARY \/ t = BOOLEAN -> typed_val t x -> isint x.
Proof.
  intros [->|[->| ->]] H; simpl in H; auto; destruct H as [->| ->]; [exists 0%Z|exists 1%Z|exists 0%Z|exists 1%Z]; reflexivity.
Qed.

Lemma ext_lt_fin_le m u y : ext_lt (Fin m) u -> y <= m -> ext_le (Fin y) u.
Proof. intros H L. eapply ext_le_trans; [|apply ext_lt_le, H]. exact L. Qed.
Lemma ext_lt_le_fin m l y : ext_lt l (Fin m) -> m <= y -> ext_le l (Fin y).
Proof. intros H L. eapply ext_le_trans; [apply ext_lt_le, H|]. exact L. Qed.

#[local] Opaque dZ.
Section B.
  Variable mid : dbl -> dbl -> dbl.
  Hypothesis MO : mid_ok mid.

  (** Specification of one split: (lb,ub) is the split dimension. *)
  Definition strictly_smaller (a b : ival) : Prop :=
    (forall x, imem x a -> imem x b) /\ (exists x, imem x b /\ ~ imem x a).

  Lemma bisectable_mid l u : i_ok (IV l u) -> i_bisectable mid (IV l u) = true ->
    is_finite (mid l u) = true /\ ext_lt (d2e l) (d2e (mid l u)) /\ ext_lt (d2e (mid l u)) (d2e u).
  Proof.
    intros K H. apply andb_true_iff in H. destruct H as [A B]. split; [apply (MO l u K)|]. split; now apply dlt_true.
  Qed.

  Lemma bisect_cont_spec l u a b : i_ok (IV l u) -> i_bisectable mid (IV l u) = true -> bisect_cont mid l u = (a, b) ->
    (forall x, imem x (IV l u) <-> imem x a \/ imem x b) /\ strictly_smaller a (IV l u) /\ strictly_smaller b (IV l u)
    /\ i_ok a /\ i_ok b.
  Proof.
    intros K H E. injection E as <- <-. destruct (bisectable_mid l u K H) as (F & A & B).
    destruct (i_ok_nan _ _ K) as [Nl Nu].
    assert (Nm : is_nan (mid l u) = false) by (destruct (mid l u); auto; discriminate).
    rewrite (finite_d2e _ F) in *.
    assert (Eq : forall x, imem x (IV l u) <-> imem x (mk_ival l (mid l u)) \/ imem x (mk_ival (mid l u) u)).
    { intros x. rewrite !mk_ival_mem by auto. cbn [imem]. rewrite (finite_d2e _ F). split.
      - intros [P Q]. destruct (Rle_lt_dec x (B2R (mid l u))); [left|right]; split; auto; simpl; lra.
      - intros [[P Q]|[P Q]]; split; auto.
        + eapply ext_le_trans; [exact Q|]. now apply ext_lt_le.
        + eapply ext_le_trans; [|exact P]. now apply ext_lt_le. }
    split; [exact Eq|]. split; [|split; [|split; apply mk_ival_ok]].
    - split; [intros x Hx; apply Eq; now left|].
      exists (match d2e u with Fin r => r | _ => B2R (mid l u) + 1 end). split.
      + cbn [imem]. destruct (d2e u) as [|r|] eqn:Eu; simpl in *.
        * exfalso. apply B. exact I.
        * split; [|lra]. apply ext_lt_fin in B. apply (ext_lt_le_fin _ _ _ A). lra.
        * split; auto. apply (ext_lt_le_fin _ _ _ A). lra.
      + rewrite mk_ival_mem by auto. rewrite (finite_d2e _ F). intros [_ Q].
        destruct (d2e u) as [|r|] eqn:Eu; simpl in *.
        * apply B. exact I.
        * apply B. exact Q.
        * lra.
    - split; [intros x Hx; apply Eq; now right|].
      exists (match d2e l with Fin r => r | _ => B2R (mid l u) - 1 end). split.
      + cbn [imem]. destruct (d2e l) as [|r|] eqn:El; simpl in *.
        * split; auto. apply (ext_lt_fin_le _ _ _ B). lra.
        * split; [lra|]. apply ext_lt_fin in A. apply (ext_lt_fin_le _ _ _ B). lra.
        * exfalso. apply A. exact I.
      + rewrite mk_ival_mem by auto. rewrite (finite_d2e _ F). intros [Q _].
        destruct (d2e l) as [|r|] eqn:El; simpl in *.
        * lra.
        * apply A. exact Q.
        * apply A. exact I.
  Qed.

  Lemma bisect_int_spec l u a b : i_ok (IV l u) -> i_bisectable mid (IV l u) = true -> bisect_int mid l u = (a, b) ->
    (forall x, imem x a \/ imem x b -> imem x (IV l u)) /\
    (Rabs (B2R (mid l u)) <= 9007199254740991 -> forall x, isint x -> imem x (IV l u) -> imem x a \/ imem x b) /\
    strictly_smaller a (IV l u) /\ strictly_smaller b (IV l u) /\ i_ok a /\ i_ok b.
  Proof.
    intros K H E. injection E as <- <-. destruct (bisectable_mid l u K H) as (F & A & B).
    destruct (i_ok_nan _ _ K) as [Nl Nu].
    assert (Nm : is_nan (mid l u) = false) by (destruct (mid l u); auto; discriminate).
    assert (Na : forall x, imem x (mk_ival (dceil l) (dfloor (mid l u))) -> imem x (IV l u) /\ x <= B2R (mid l u)).
    { intros x. rewrite mk_ival_mem by auto using dceil_nan, dfloor_nan'. intros [P Q]. cbn [imem].
      assert (Q' : ext_le (Fin x) (d2e (mid l u))) by (eapply ext_le_trans; [exact Q|apply dfloor_le; auto]).
      split; [split|].
      - eapply ext_le_trans; [apply dceil_ge; auto|exact P].
      - eapply ext_le_trans; [exact Q'|]. now apply ext_lt_le.
      - rewrite (finite_d2e _ F) in Q'. exact Q'. }
    assert (Nb : forall x, imem x (mk_ival (dadd (dfloor (mid l u)) (dZ 1)) (dfloor u)) -> imem x (IV l u) /\ B2R (mid l u) <= x).
    { intros x. rewrite mk_ival_mem by auto using dadd_one_nan, dfloor_nan'. intros [P Q]. cbn [imem].
      assert (P' : ext_le (d2e (mid l u)) (Fin x)) by (eapply ext_le_trans; [apply dadd_one_ge; auto|exact P]).
      split; [split|].
      - eapply ext_le_trans; [|exact P']. now apply ext_lt_le.
      - eapply ext_le_trans; [exact Q|]. now apply dfloor_le.
      - rewrite (finite_d2e _ F) in P'. exact P'. }
    split; [intros x [Hx|Hx]; [apply Na|apply Nb]; auto|]. split; [|split; [|split; [|split; apply mk_ival_ok]]].
    - intros L x (z & ->) [P Q]. rewrite !mk_ival_mem by auto using dceil_nan, dfloor_nan', dadd_one_nan.
      destruct (dadd_one_exact _ F L) as [F1 R1].
      destruct (Z_le_gt_dec z (Zfloor (B2R (mid l u)))) as [Hz|Hz].
      + left. split; [now apply dceil_le_int|]. rewrite finite_d2e by now rewrite dfloor_fin. cbn [ext_le]. rewrite dfloor_R. now apply IZR_le.
      + right. split; [|now apply dfloor_ge_int]. rewrite finite_d2e by auto. cbn [ext_le]. rewrite R1. apply IZR_le. lia.
    - split; [intros x Hx; now apply Na|].
      exists (match d2e u with Fin r => r | _ => B2R (mid l u) + 1 end). rewrite (finite_d2e _ F) in *. split.
      + cbn [imem]. destruct (d2e u) as [|r|] eqn:Eu; simpl in *.
        * exfalso. apply B. exact I.
        * split; [|lra]. apply ext_lt_fin in B. apply (ext_lt_le_fin _ _ _ A). lra.
        * split; auto. apply (ext_lt_le_fin _ _ _ A). lra.
      + intros C. apply Na in C. destruct C as [_ C]. destruct (d2e u) as [|r|]; simpl in *.
        * apply B. exact I.
        * apply B. exact C.
        * lra.
    - split; [intros x Hx; now apply Nb|].
      exists (match d2e l with Fin r => r | _ => B2R (mid l u) - 1 end). rewrite (finite_d2e _ F) in *. split.
      + cbn [imem]. destruct (d2e l) as [|r|] eqn:El; simpl in *.
        * split; auto. apply (ext_lt_fin_le _ _ _ B). lra.
        * split; [lra|]. apply ext_lt_fin in A. apply (ext_lt_fin_le _ _ _ B). lra.
        * exfalso. apply A. exact I.
      + intros C. apply Nb in C. destruct C as [_ C]. destruct (d2e l) as [|r|]; simpl in *.
        * lra.
        * apply A. exact C.
        * apply A. exact I.
  Qed.

  (** The width of integers reachable below 2^53: hypothesis on dimension [i] for the cover property. *)
  Definition bisect_range_ok (b : box) (i : nat) (v : var) : Prop :=
    vty v = CONTINUOUS \/ forall l u, b_get b i = IV l u -> Rabs (B2R (mid l u)) <= 9007199254740991.

  Lemma b_bisect_inv b i b1 b2 : b_bisect mid b i = Some (b1, b2) -> exists v l u x y,
    nth_error (bvars b) i = Some v /\ b_get b i = IV l u /\ i_bisectable mid (IV l u) = true /\
    b1 = b_set b i x /\ b2 = b_set b i y /\
    ((vty v = CONTINUOUS /\ bisect_cont mid l u = (x, y)) \/ ((vty v = INTEGER \/ vty v = BINARY) /\ bisect_int mid l u = (x, y))).
  Proof.
    unfold b_bisect. destruct (nth_error (bvars b) i) as [v|]; [|discriminate].
    destruct (b_get b i) as [|l u]; [discriminate|]. destruct (i_bisectable mid (IV l u)) eqn:Hbi; [|discriminate].
    intros E. destruct (vty v) eqn:T; try discriminate.
    - destruct (bisect_cont mid l u) as [x y] eqn:Eb. injection E as <- <-. exists v, l, u, x, y. do 5 (split; [auto|]). rewrite T. auto 6.
    - destruct (bisect_int mid l u) as [x y] eqn:Eb. injection E as <- <-. exists v, l, u, x, y. do 5 (split; [auto|]). rewrite T. auto 6.
    - destruct (bisect_int mid l u) as [x y] eqn:Eb. injection E as <- <-. exists v, l, u, x, y. do 5 (split; [auto|]). rewrite T. auto 6.
  Qed.

  Lemma bisect_spec b i b1 b2 : box_ok b -> b_bisect mid b i = Some (b1, b2) ->
    exists v, nth_error (bvars b) i = Some v /\
      (forall rho, in_box rho b1 \/ in_box rho b2 -> in_box rho b) /\
      (bisect_range_ok b i v -> forall rho, typed_val (vty v) (rho v) -> in_box rho b -> in_box rho b1 \/ in_box rho b2) /\
      strictly_smaller (b_get b1 i) (b_get b i) /\ strictly_smaller (b_get b2 i) (b_get b i) /\
      (forall j, j <> i -> b_get b1 j = b_get b j /\ b_get b2 j = b_get b j) /\
      bvars b1 = bvars b /\ bvars b2 = bvars b /\ box_ok b1 /\ box_ok b2.
  Proof.
    intros K E. destruct (b_bisect_inv _ _ _ _ E) as (v & l & u & x & y & Ev & Eg & Hb & -> & -> & Hc).
    pose proof (box_ok_get b i K) as Ko. rewrite Eg in Ko.
    pose proof (box_ok_len b i v K Ev) as Li.
    exists v. split; [exact Ev|]. rewrite !b_get_set_eq by auto. rewrite Eg.
    assert (S : (forall t, imem t x \/ imem t y -> imem t (IV l u)) /\
       (bisect_range_ok b i v -> forall t, typed_val (vty v) t -> imem t (IV l u) -> imem t x \/ imem t y) /\
       strictly_smaller x (IV l u) /\ strictly_smaller y (IV l u) /\ i_ok x /\ i_ok y).
    { destruct Hc as [[T C]|[T C]].
      - destruct (bisect_cont_spec l u x y Ko Hb C) as (A & B & D). split; [intros t Ht; now apply A|].
        split; [|tauto]. intros _ t _ Ht. now apply A.
      - destruct (bisect_int_spec l u x y Ko Hb C) as (A & B & D). split; [exact A|]. split; [|exact D].
        intros [R|R] t Ht Hm; [destruct T; congruence|]. apply B; auto. apply (typed_isint (vty v)); [tauto|exact Ht]. }
    destruct S as (S1 & S2 & S3 & S4 & S5 & S6).
    split; [|split; [|split; [exact S3|split; [exact S4|split; [|split; [reflexivity|split; [reflexivity|split; now apply b_set_ok]]]]]]].
    - intros rho [H|H]; (eapply in_box_set_sub; [exact K|exact Ev| |exact H]); rewrite Eg; intros; apply S1; auto.
    - intros R rho T H. pose proof (in_box_comp _ _ _ _ H Ev) as Hm. rewrite Eg in Hm.
      destruct (S2 R _ T Hm) as [G|G]; [left|right]; eapply in_box_set_mem; eauto.
    - intros j N. rewrite !b_get_set_ne by auto. auto.
  Qed.
End B.
