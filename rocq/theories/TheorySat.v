(** * What the theory solver's delta-sat answers guarantee *)
From Coq Require Import ZArith Reals Lra Lia List Bool.
From Flocq Require Import Core.Core IEEE754.BinarySingleNaN.
From Verif Require Import Dbl DblProofs Syntax Sem SemProofs Interval IntervalProofs MathConv MathConvProofs IEval IEvalProofs Contr ContrProofs IbexConv Icp IcpProofs IcpTop IcpPar IcpParProofs IcpParTop Filter FilterProofs Theory SpecWeak ExplainProofs TheoryProofs TheoryUsed TheoryTop.
Import ListNotations.
Local Notation R := Rdefinitions.R.
Local Open Scope R_scope.

Lemma in_box_v rho b v : box_ok b -> In v (bvars b) -> in_box rho b -> imem (rho v) (b_getv b v).
Proof. intros K Hv H. destruct (In_nth_error _ _ Hv) as [i Hi]. rewrite (getv_v b v i K Hi). exact (in_box_comp _ _ _ _ H Hi). Qed.

Lemma narrowed_v P i v b b' rho : box_ok b -> nth_error (bvars b) i = Some v -> narrowed P i b b' -> imem (rho v) (b_getv b' v) -> P (rho v).
Proof.
  intros K Hi [[-> _]|(y & -> & Ky & Ey & Hy)] H.
  - exfalso. unfold b_getv, b_get, b_set_empty in H. cbn [bvals] in H. rewrite (map_nth (fun _ => IEmpty) (bvals b) IEmpty) in H. exact H.
  - unfold b_getv in H. change (b_idx0 (b_set b i y) v) with (b_idx0 b v) in H. rewrite (idx_v b v i K Hi) in H. rewrite b_get_set_eq in H by (eapply box_ok_len; eauto). apply Hy in H. apply H.
Qed.
Section Weak.
  Variables (M : interp) (b : box) (delta : R).
  Hypothesis RC : rc_ok M.
  Hypothesis K : box_ok b.
  Hypothesis Pd : 0 < delta.

  Lemma lb_in v c rho : In v (bvars b) -> is_finite c = true -> imem (rho v) (b_getv (snd (upd_lb v c b)) v) -> B2R c <= rho v.
  Proof. intros Hv F H. destruct (In_nth_error _ _ Hv) as [i Hi]. exact (narrowed_v _ i v b _ rho K Hi (upd_lb_spec b v i K Hi c F) H). Qed.
  Lemma ub_in v c rho : In v (bvars b) -> is_finite c = true -> imem (rho v) (b_getv (snd (upd_ub v c b)) v) -> rho v <= B2R c.
  Proof. intros Hv F H. destruct (In_nth_error _ _ Hv) as [i Hi]. exact (narrowed_v _ i v b _ rho K Hi (upd_ub_spec b v i K Hi c F) H). Qed.
  Lemma eq_in v c rho : In v (bvars b) -> is_finite c = true -> imem (rho v) (b_getv (snd (upd_eq v c b)) v) -> rho v = B2R c.
  Proof. intros Hv F H. destruct (In_nth_error _ _ Hv) as [i Hi]. exact (narrowed_v _ i v b _ rho K Hi (upd_eq_spec b v i K Hi c F) H). Qed.
  Lemma eq2_in v l u rho : In v (bvars b) -> is_finite l = true -> is_finite u = true -> dle l u = true -> imem (rho v) (b_getv (snd (upd_eq2 v l u b)) v) -> B2R l <= rho v <= B2R u.
  Proof. intros Hv F1 F2 L H. destruct (In_nth_error _ _ Hv) as [i Hi]. exact (narrowed_v _ i v b _ rho K Hi (upd_eq2_spec b v i K Hi l u F1 F2 L) H). Qed.
  Lemma slb_in v c rho r b' : In v (bvars b) -> is_finite c = true -> upd_slb v c b = Some (r, b') -> imem (rho v) (b_getv b' v) -> B2R c <= rho v.
  Proof.
    intros Hv F E H. destruct (next_up c F) as (F' & L & _). rewrite (finite_d2e _ F), (finite_d2e _ F') in L. cbn [ext_le] in L. unfold upd_slb in E.
    destruct (vty v); try discriminate; injection E as E; try (subst b'; apply (lb_in v c); auto; fail).
    assert (X : B2R (dnextafter c dmax) <= rho v) by (apply lb_in; auto; rewrite E; exact H). lra.
  Qed.
  Lemma sub_in v c rho r b' : In v (bvars b) -> is_finite c = true -> upd_sub v c b = Some (r, b') -> imem (rho v) (b_getv b' v) -> rho v <= B2R c \/ rho v <= B2R (Bsucc c).
  Proof.
    intros Hv F E H. destruct (next_dmin c F) as (F' & _ & _). unfold upd_sub in E.
    destruct (vty v); try discriminate; injection E as E; try (subst b'; left; apply (ub_in v c); auto; fail).
    assert (X : rho v <= B2R (dnextafter c dmin_normal)) by (apply ub_in; auto; rewrite E; exact H).
    unfold dnextafter in X, F'. rewrite (fin_nan _ F), (fin_nan _ dmin_fin) in X, F'. cbn [orb] in X, F'. destruct (deq c dmin_normal) eqn:E1.
    - left. apply deq_true in E1. rewrite (finite_d2e _ F), (finite_d2e _ dmin_fin) in E1. assert (E2 : B2R c = B2R dmin_normal) by congruence. rewrite E2. exact X.
    - destruct (dlt c dmin_normal); [right; exact X|left]. pose proof (Bpred_lt c F) as P. rewrite (finite_d2e _ F), (finite_d2e _ F') in P. apply ext_lt_fin in P. lra.
  Qed.

  Lemma rcb l u : dle l u = true /\ is_finite l = true /\ is_finite u = true -> B2R l <= i_rc M l u <= B2R u.
  Proof. intros (A & B & C). apply (rc_bounds M RC); auto. Qed.

  Lemma gt_weak a c (q : bool) r b' rho : finE a -> finE c -> (forall v, In v (fvE a ++ fvE c) -> In v (bvars b)) ->
    bounds_small delta (FRel RGt a c) -> is_simple_relational (FRel RGt a c) = true -> filt_gt a c q b = Some (r, b') -> (forall v, In v (fvE a ++ fvE c) -> imem (rho v) (b_getv b' v)) ->
    weakR delta (if q then RGt else RLeq) (evalE M a rho) (evalE M c rho).
  Proof.
    intros Fa Fc Hv Sm Si E H. unfold filt_gt in E. unfold bounds_small in Sm.
    destruct a as [c1|l1 u1 s1|v1| | | | | |], c as [c2|l2 u2 s2|v2| | | | | |]; try discriminate Si; cbn [bound_lit consts_of] in Sm; cbn [finE] in Fa, Fc; cbn [fvE app] in Hv, H; specialize (H _ (or_introl eq_refl)); cbn [evalE];
      try (pose proof (rcb _ _ Fa) as RB); try (pose proof (rcb _ _ Fc) as RB);
      try (destruct (Sm c1 c1) as [S1 S2]; cbn; auto); try (destruct (Sm c2 c2) as [S1 S2]; cbn; auto);
      try (destruct (Sm u1 l1) as [S1 S2]; cbn; auto); try (destruct (Sm u2 l2) as [S1 S2]; cbn; auto).
    - destruct q; cbn [weakR].
      + destruct (sub_in v2 c1 rho r b' (Hv _ (or_introl eq_refl)) Fa E H); lra.
      + injection E as E. assert (X := lb_in v2 c1 rho (Hv _ (or_introl eq_refl)) Fa). rewrite E in X. specialize (X H). lra.
    - destruct Fa as (W1 & W2 & W3). destruct q; cbn [weakR].
      + destruct (sub_in v2 u1 rho r b' (Hv _ (or_introl eq_refl)) W3 E H); lra.
      + injection E as E. assert (X := lb_in v2 l1 rho (Hv _ (or_introl eq_refl)) W2). rewrite E in X. specialize (X H). lra.
    - destruct q; cbn [weakR].
      + pose proof (slb_in v1 c2 rho r b' (Hv _ (or_introl eq_refl)) Fc E H). lra.
      + injection E as E. assert (X := ub_in v1 c2 rho (Hv _ (or_introl eq_refl)) Fc). rewrite E in X. specialize (X H). lra.
    - destruct Fc as (W1 & W2 & W3). destruct q; cbn [weakR].
      + pose proof (slb_in v1 l2 rho r b' (Hv _ (or_introl eq_refl)) W2 E H). lra.
      + injection E as E. assert (X := ub_in v1 u2 rho (Hv _ (or_introl eq_refl)) W3). rewrite E in X. specialize (X H). lra.
  Qed.
  Lemma geq_weak a c (q : bool) r b' rho : finE a -> finE c -> (forall v, In v (fvE a ++ fvE c) -> In v (bvars b)) ->
    bounds_small delta (FRel RGt a c) -> is_simple_relational (FRel RGt a c) = true -> filt_geq a c q b = Some (r, b') -> (forall v, In v (fvE a ++ fvE c) -> imem (rho v) (b_getv b' v)) ->
    weakR delta (if q then RGeq else RLt) (evalE M a rho) (evalE M c rho).
  Proof.
    intros Fa Fc Hv Sm Si E H. unfold filt_geq in E. unfold bounds_small in Sm.
    destruct a as [c1|l1 u1 s1|v1| | | | | |], c as [c2|l2 u2 s2|v2| | | | | |]; try discriminate Si; cbn [bound_lit consts_of] in Sm; cbn [finE] in Fa, Fc; cbn [fvE app] in Hv, H; specialize (H _ (or_introl eq_refl)); cbn [evalE];
      try (pose proof (rcb _ _ Fa) as RB); try (pose proof (rcb _ _ Fc) as RB);
      try (destruct (Sm c1 c1) as [S1 S2]; cbn; auto); try (destruct (Sm c2 c2) as [S1 S2]; cbn; auto);
      try (destruct (Sm u1 l1) as [S1 S2]; cbn; auto); try (destruct (Sm u2 l2) as [S1 S2]; cbn; auto).
    - destruct q; cbn [weakR].
      + injection E as E. assert (X := ub_in v2 c1 rho (Hv _ (or_introl eq_refl)) Fa). rewrite E in X. specialize (X H). lra.
      + pose proof (slb_in v2 c1 rho r b' (Hv _ (or_introl eq_refl)) Fa E H). lra.
    - destruct Fa as (W1 & W2 & W3). destruct q; cbn [weakR].
      + injection E as E. assert (X := ub_in v2 u1 rho (Hv _ (or_introl eq_refl)) W3). rewrite E in X. specialize (X H). lra.
      + pose proof (slb_in v2 l1 rho r b' (Hv _ (or_introl eq_refl)) W2 E H). lra.
    - destruct q; cbn [weakR].
      + injection E as E. assert (X := lb_in v1 c2 rho (Hv _ (or_introl eq_refl)) Fc). rewrite E in X. specialize (X H). lra.
      + destruct (sub_in v1 c2 rho r b' (Hv _ (or_introl eq_refl)) Fc E H); lra.
    - destruct Fc as (W1 & W2 & W3). destruct q; cbn [weakR].
      + injection E as E. assert (X := lb_in v1 l2 rho (Hv _ (or_introl eq_refl)) W2). rewrite E in X. specialize (X H). lra.
      + destruct (sub_in v1 u2 rho r b' (Hv _ (or_introl eq_refl)) W3 E H); lra.
  Qed.
  Lemma eq_weak a c (q : bool) r b' rho : finE a -> finE c -> (forall v, In v (fvE a ++ fvE c) -> In v (bvars b)) ->
    bounds_small delta (FRel RGt a c) -> is_simple_relational (FRel RGt a c) = true -> filt_eq a c q b = Some (r, b') -> (forall v, In v (fvE a ++ fvE c) -> imem (rho v) (b_getv b' v)) ->
    weakR delta (if q then REq else RNeq) (evalE M a rho) (evalE M c rho).
  Proof.
    intros Fa Fc Hv Sm Si E H. destruct q; [|exact I]. unfold filt_eq in E. cbn [negb] in E. unfold bounds_small in Sm.
    destruct a as [c1|l1 u1 s1|v1| | | | | |], c as [c2|l2 u2 s2|v2| | | | | |]; try discriminate Si; cbn [bound_lit consts_of] in Sm; cbn [finE] in Fa, Fc; cbn [fvE app] in Hv, H; specialize (H _ (or_introl eq_refl)); cbn [evalE weakR];
      try (pose proof (rcb _ _ Fa) as RB); try (pose proof (rcb _ _ Fc) as RB);
      try (destruct (Sm u1 l1) as [S1 S2]; cbn; auto); try (destruct (Sm u2 l2) as [S1 S2]; cbn; auto); injection E as E; apply Rabs_le.
    - assert (X := eq_in v2 c1 rho (Hv _ (or_introl eq_refl)) Fa). rewrite E in X. specialize (X H). lra.
    - destruct Fa as (W1 & W2 & W3). assert (X := eq2_in v2 l1 u1 rho (Hv _ (or_introl eq_refl)) W2 W3 W1). rewrite E in X. specialize (X H). lra.
    - assert (X := eq_in v1 c2 rho (Hv _ (or_introl eq_refl)) Fc). rewrite E in X. specialize (X H). lra.
    - destruct Fc as (W1 & W2 & W3). assert (X := eq2_in v1 l2 u2 rho (Hv _ (or_introl eq_refl)) W2 W3 W1). rewrite E in X. specialize (X H). lra.
  Qed.
  Lemma bounds_op o o' a c : bounds_small delta (FRel o a c) -> bounds_small delta (FRel o' a c).
  Proof. unfold bounds_small. cbn [bound_lit]. destruct a, c; auto. Qed.
  Lemma filt_weak f : forall pol r b' rho, (forall v, In v (fvF f) -> In v (bvars b)) -> finF f -> bounds_small delta f -> is_simple_relational f = true ->
    filt f pol b = Some (r, b') -> (forall v, In v (fvF f) -> imem (rho v) (b_getv b' v)) -> weak M delta pol f rho.
  Proof.
    induction f as [| |v|o a c|gs|gs|g IH|vs g]; intros pol r b' rho Hv Hf Sm Si E H; try discriminate Si.
    - cbn [finF] in Hf. destruct Hf as [Fa Fc]. cbn [fvF] in Hv, H. apply (bounds_op o RGt) in Sm. change (is_simple_relational (FRel RGt a c) = true) in Si. cbn [filt] in E. cbn [weak].
      destruct o.
      + pose proof (eq_weak a c pol r b' rho Fa Fc Hv Sm Si E H) as X. destruct pol; exact X.
      + pose proof (eq_weak a c (negb pol) r b' rho Fa Fc Hv Sm Si E H) as X. destruct pol; exact X.
      + pose proof (gt_weak a c pol r b' rho Fa Fc Hv Sm Si E H) as X. destruct pol; exact X.
      + pose proof (geq_weak a c pol r b' rho Fa Fc Hv Sm Si E H) as X. destruct pol; exact X.
      + pose proof (geq_weak a c (negb pol) r b' rho Fa Fc Hv Sm Si E H) as X. destruct pol; exact X.
      + pose proof (gt_weak a c (negb pol) r b' rho Fa Fc Hv Sm Si E H) as X. destruct pol; exact X.
    - cbn [weak]. apply (IH (negb pol) r b'); auto.
  Qed.
End Weak.

Lemma filt_simple f : forall pol b r b', filt f pol b = Some (r, b') -> r <> NotFiltered -> is_simple_relational f = true.
Proof.
  induction f as [| |v|o a c|gs|gs|g IH|vs g]; intros pol b r b' E N; try (injection E as <- <-; congruence).
  - cbn [filt] in E. cbn [is_simple_relational]. destruct o; unfold filt_eq, filt_gt, filt_geq in E; destruct a, c; try reflexivity; try (injection E as <- <-; congruence);
      destruct (negb pol); try (injection E as <- <-; congruence); destruct (negb _); injection E as <- <-; congruence.
  - cbn [filt] in E. cbn [is_simple_relational]. eauto.
Qed.

(** ** Accepted boxes *)
(** The dimension cannot be split into two smaller ones. *)
Definition unsplittable (mid : dbl -> dbl -> dbl) (i : ival) : Prop := i_bisectable mid i = false.
Lemma bisectable_diam mid i : i_ok i -> i_bisectable mid i = true -> dgt (i_diam i) dzero = true.
Proof.
  intros Ki H. destruct i as [|l u]; [discriminate|]. cbn [i_bisectable] in H. apply andb_true_iff in H. destruct H as [H1 H2]. apply dlt_true in H1. apply dlt_true in H2.
  assert (Lu : ext_lt (d2e l) (d2e u)) by (intros C; apply H1; apply (ext_le_trans _ (d2e u)); [apply ext_lt_le; exact H2|exact C]).
  destruct (dgt (i_diam (IV l u)) dzero) eqn:E; [reflexivity|exfalso]. destruct (i_diam_width l u dzero Ki eq_refl E) as (Fl & Fu & W).
  rewrite (finite_d2e _ Fl), (finite_d2e _ Fu) in Lu. apply ext_lt_fin in Lu. cbn [dzero B2R] in W. lra.
Qed.

Section Sat.
  Variables (M : interp) (D : pdom) (Orc : oracles) (term : list ival -> list ival -> bool) (m : nat).
  Variables (esub : expr -> expr -> expr) (eneg : expr -> expr) (n : nat).
  Variables (fs : list formula) (b0 : box).
  Hypothesis RC : rc_ok M.
  Hypothesis Hfv : forall f v, In f fs -> In v (fvF f) -> In v (bvars b0).
  Hypothesis Hfin : forall f, In f fs -> finF f.
  Hypothesis Hlit : forall f c, In f fs -> lit_ctc esub eneg n (bvars b0) f = Some c -> c_ok M D Orc (bvars b0) c.
  Variable ev : formula -> box -> option (etype * ival).
  Variables (mid : dbl -> dbl -> dbl) (precision : dbl).
  Hypothesis Hmid : mid_ok mid.
  Hypothesis HR0 : int_range b0.

  (** [b'] was filtered by [f] *)
  Definition filtered (b' : box) (f : formula) : Prop :=
    exists b r b1, box_ok b /\ bvars b = bvars b0 /\ filter_assertion f b = Some (r, b1) /\ box_sub b' b1.
  Lemma filtered_sub f b b' : box_sub b' b -> filtered b f -> filtered b' f.
  Proof. intros S (c & r & b1 & K & V & E & S1). exists c, r, b1. split; auto. split; auto. split; auto. eapply box_sub_trans; eauto. Qed.
  Lemma build_filtered l : incl l fs -> forall s acc s' cs, okb b0 (cs_box s) -> build_loop esub eneg n l s acc = Some (s', Some cs) ->
    okb b0 (cs_box s') /\ box_sub (cs_box s') (cs_box s) /\ forall f, In f l -> filtered (cs_box s') f.
  Proof.
    induction l as [|f l IH]; intros Hl s acc s' cs Ks; cbn [build_loop]; [intros [= <- _]; split; auto; split; [apply box_sub_refl|intros ? []]|].
    assert (Hf : In f fs) by (apply Hl; left; auto). assert (Hl' : incl l fs) by (intros x Hx; apply Hl; right; auto).
    destruct (filter_assertion f (cs_box s)) as [[r b']|] eqn:Ef; cbn [bind]; [|discriminate].
    assert (X : okb b0 b' /\ box_sub b' (cs_box s)). { destruct Ks as [Ks1 Ks2]. destruct (filter_sub M f (cs_box s) r b' RC Ks1) as (X1 & X2); auto; [rewrite (proj1 Ks2); intros v; apply Hfv; auto|]. split; [split; [exact X1|eapply box_sub_trans; eauto]|exact X2]. }
    destruct X as [X X'].
    assert (Next : forall s2 acc2, cs_box s2 = b' -> build_loop esub eneg n l s2 acc2 = Some (s', Some cs) ->
      okb b0 (cs_box s') /\ box_sub (cs_box s') (cs_box s) /\ forall g, In g (f :: l) -> filtered (cs_box s') g).
    { intros s2 acc2 E2 E. destruct (IH Hl' s2 acc2 s' cs ltac:(rewrite E2; exact X) E) as (Y1 & Y2 & Y3). rewrite E2 in Y2. split; auto. split; [eapply box_sub_trans; eauto|].
      intros g [<-|Hg]; [|auto]. exists (cs_box s), r, b'. split; [apply Ks|]. split; [apply (proj1 (proj2 Ks))|]. split; auto. }
    destruct r.
    - destruct (lit_ctc esub eneg n (bvars b') f); cbn [bind]; [|discriminate]. apply Next. destruct (b_eqb _ _); [reflexivity|rewrite add_used_box; reflexivity].
    - destruct (b_empty b'); [discriminate|]. apply Next. rewrite add_used_box. reflexivity.
    - apply Next. reflexivity.
  Qed.

  (** The searches return a part of the box accepted for every literal. *)
  Definition search_acc (search : contractor -> cstat -> option (bool * cstat)) : Prop :=
    forall c s r s', c_ok M D Orc (bvars b0) c -> okb b0 (cs_box s) -> search c s = Some (r, s') -> b_empty (cs_box s') = false ->
      box_ok (cs_box s') /\ box_sub (cs_box s') (cs_box s) /\ exists t, cs_box t = cs_box s' /\ accepted ev (branch_largest mid) precision fs t.
  Lemma okb_sub b : okb b0 b -> box_ok b /\ bvars b = bvars b0 /\ int_range b.
  Proof. intros [A B]. split; auto. split; [apply B|]. eapply int_range_sub; eauto. Qed.
  Lemma pr_okb b c : okb b0 b -> c_ok M D Orc (bvars b0) c -> forall t t', okb b (cs_box t) -> prune Orc term m c t = Some t' -> okb b (cs_box t').
  Proof.
    intros Kb Hc t t' [A B] Et. assert (X : keeps (c_sem M D c) t t') by (eapply prune_keeps; eauto; rewrite (proj1 B), (proj1 (proj2 Kb)); auto).
    split; [apply X|]. eapply box_sub_trans; [|exact B]. split; apply X.
  Qed.
  Lemma br_okb b : okb b0 b -> forall b1 act d l r, okb b b1 -> branch_largest mid b1 act = Some (Some (d, l, r)) -> okb b l /\ okb b r.
  Proof.
    intros Kb b1 act d l r [A B] E1. destruct (branch_largest_sound mid Hmid b1 act d l r A (int_range_sub _ _ B (proj2 (proj2 (okb_sub b Kb)))) E1) as (X1 & X2 & X3 & X4 & _).
    split; split; auto; eapply box_sub_trans; eauto.
  Qed.
  Lemma seq_acc k lf : search_acc (search_seq Orc term m ev mid precision k lf fs).
  Proof.
    intros c s r s' Hc Kb Es Ne. unfold search_seq, icp_seq in Es. destruct r.
    - assert (K0 : Forall (fun p : box * option nat => okb (cs_box s) (fst p)) [(cs_box s, None)]) by (constructor; [split; [apply Kb|apply box_sub_refl]|constructor]).
      destruct (loop_accept _ ev _ precision fs (okb (cs_box s)) (pr_okb _ c Kb Hc) (br_okb _ Kb) _ _ _ _ _ K0 Es) as ([X1 X2] & X3 & _). split; auto. split; auto. exists s'. auto.
    - exfalso. assert (b_empty (cs_box s') = true) by (eapply loop_false_empty; [|exact Es]; discriminate). congruence.
  Qed.
  Lemma par_acc lf jobs sched : search_acc (search_par Orc term m ev mid precision lf jobs sched fs).
  Proof.
    intros c s r s' Hc Kb Es Ne. unfold search_par in Es. destruct r.
    - destruct (par_accept _ ev mid precision fs (okb (cs_box s)) (pr_okb _ c Kb Hc) (br_okb _ Kb) lf jobs sched s s') as ([X1 X2] & X3); auto. split; [apply Kb|apply box_sub_refl].
    - exfalso. rewrite (par_false_empty _ ev mid precision fs lf jobs sched s s' Es) in Ne. discriminate.
  Qed.

  Theorem theory_sat wl search b : box_ok b0 -> search_acc search -> theory_check esub eneg n wl false search b0 fs = Some (TSat b) ->
    box_ok b /\ box_sub b b0 /\ b_empty b = false /\ (exists t, cs_box t = b /\ accepted ev (branch_largest mid) precision fs t) /\ forall f, In f fs -> filtered b f.
  Proof.
    intros K Hs E1. unfold theory_check in E1.
    destruct (build_contractor esub eneg n wl false fs (cs_new b0 None)) as [[s o]|] eqn:Eb; cbn [bind] in E1; [|discriminate].
    destruct o as [c|]; [|discriminate]. destruct (search c s) as [[r s']|] eqn:Es; cbn [bind snd] in E1; [|discriminate].
    destruct (b_empty (cs_box s')) eqn:Em; [discriminate|]. injection E1 as <-.
    assert (X : okb b0 (cs_box s) /\ c_ok M D Orc (bvars b0) c /\ forall f, In f fs -> filtered (cs_box s) f).
    { unfold build_contractor in Eb. remember fs as l0 eqn:Ef in Eb. destruct l0 as [|f0 fs0].
      - injection Eb as <- <-. split; [split; [exact K|apply box_sub_refl]|]. split; [apply mk_integer_ok|]. rewrite <- Ef. intros f [].
      - rewrite Ef in Eb. destruct (build_loop esub eneg n fs (cs_new b0 None) []) as [[s1 ol]|] eqn:El; cbn [bind] in Eb; [|discriminate].
        destruct ol as [l|]; [|discriminate]. injection Eb as <- <-.
        destruct (build_filtered fs (incl_refl _) (cs_new b0 None) [] s1 l) as (Y1 & Y2 & Y3); auto; [split; [exact K|apply box_sub_refl]|].
        split; auto. split; [|exact Y3]. pose proof (build_loop_ctcs M D Orc esub eneg n fs b0 RC Hfv Hfin Hlit fs (incl_refl _) (cs_new b0 None) [] s1 l K eq_refl (Forall_nil _) El) as F.
        assert (F' : Forall (fun c => c_ok M D Orc (bvars b0) c /\ c_plain c) (l ++ [mk_integer (cs_box s1)])).
        { apply Forall_app. split; auto. constructor; [|constructor]. split; [rewrite <- (proj1 (proj2 Y1)); apply mk_integer_ok|].
          destruct (mk_integer_vars b0 (cs_box s1) (proj1 (proj2 Y1))) as [->|[-> _]]; exact I. }
        assert (C : forall l', Forall (fun c => c_ok M D Orc (bvars b0) c /\ c_plain c) l' -> c_ok M D Orc (bvars b0) (CFix l') /\ c_ok M D Orc (bvars b0) (CWork l')).
        { intros l' H. cbn [c_ok]. assert (X : fold_right (fun c' acc => c_ok M D Orc (bvars b0) c' /\ acc) True l') by (induction H as [|c l' [H1 H2] H IH]; cbn [fold_right]; auto). tauto. }
        apply (flatten_okc M D Orc b0) in F'. destruct wl.
        + unfold mk_work. destruct (c_flatten (l ++ [mk_integer (cs_box s1)])); [exact I|]. apply C. exact F'.
        + unfold mk_fix. destruct (c_flatten (l ++ [mk_integer (cs_box s1)])); [exact I|]. apply C. exact F'. }
    destruct X as (Kb & Hc & Hf). destruct (Hs c s r s' Hc Kb Es Em) as (Y1 & Y2 & Y3).
    split; auto. split; [eapply box_sub_trans; [exact Y2|apply Kb]|]. split; auto. split; auto. intros f Hf'. eapply filtered_sub; eauto.
  Qed.
End Sat.
