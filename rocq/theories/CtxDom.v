(** * The reported model: its variables and their domains (behind C29, C30) *)
From Coq Require Import ZArith Reals Lra Lia List Bool Arith Classical.
From Flocq Require Import Core.Core IEEE754.BinarySingleNaN.
From Verif Require Import Dbl DblProofs Syntax Sem SemProofs FormulaCons FormulaConsProofs SpecForm Nnf NnfProofs PredAbs PredAbsProofs Tseitin TseitinProofs ConsUnfolded
  Scoped SpecScoped ScopedProofs Interval IntervalProofs MathConv MathConvProofs IEval IEvalProofs Contr Icp IcpTop Filter FilterProofs Theory TheoryTop IteElim SpecIte IteElimProofs
  Regular RegularProofs Wff WffProofs Sat Context CtxStruct SatSem CdclProofs SpecCtx CtxBox CtxSem CtxRun CtxInv SpecModel CtxModel CtxSat.
Import ListNotations.
#[local] Opaque dZ.

(** The theory solver returns a non-empty part of the box it is given. *)
Definition T_box (fold : expr -> expr -> option dbl) (qa : Prop) (okA : formula -> Prop) (okV : var -> Prop) (T : nat -> box -> list formula -> option tres) : Prop :=
  forall t b fs B, box_ok b -> int_range b -> (forall v, In v (bvars b) -> okV v) -> (forall f, In f fs -> tlit fold qa okA b f) -> T t b fs = Some (TSat B) ->
    box_ok B /\ box_sub B b /\ b_empty B = false.

Definition unit_type (t : vtype) : Prop := t = BINARY \/ t = BOOLEAN.
(** [i] lies in the domain [d] of [v]. *)
Definition dom_in (v : var) (d : R -> Prop) (i : ival) : Prop := exists dv, i_ok dv /\ (forall x, imem x dv <-> d x) /\
  (vty v <> CONTINUOUS -> int_ends dv) /\ (unit_type (vty v) -> forall x, imem x dv -> (0 <= x <= 1)%R) /\ (vty v = BOOLEAN -> imem 0 dv /\ imem 1 dv) /\
  forall x, imem x i -> imem x dv.
Lemma dom_in_sub v d i j : (forall x, imem x j -> imem x i) -> dom_in v d i -> dom_in v d j.
Proof. intros H (dv & A1 & A2 & A3 & A4 & A5 & A6). exists dv. auto 10. Qed.
Lemma dom0_in v : dom_in v (dom0 (vty v)) (match default_dom (vty v) with Some i => i | None => i_all end).
Proof.
  destruct (default_dom (vty v)) as [i|] eqn:E.
  - exists i. split; [exact (default_ok _ _ E)|]. split; [intros x; exact (dom0_default _ x i E)|].
    assert (Fin0 : is_finite dzero = true /\ B2R dzero = 0%R) by (split; reflexivity).
    destruct (dZ_exact 1) as [F1 E1]; [cbn; lia|]. destruct (dZ_exact 2147483647) as [F2 E2]; [cbn; lia|]. destruct (dZ_exact (-2147483647)) as [F3 E3]; [cbn; lia|].
    assert (Mem : forall l u, i = mk_ival l u -> is_nan l = false -> is_nan u = false -> (exists z, B2R l = IZR z) -> (exists z, B2R u = IZR z) -> int_ends i).
    { intros l u -> _ _ [z Hz] [w Hw]. unfold mk_ival. destruct (_ && _)%bool; [|exact I]. split; intros _; eauto. }
    split.
    { intros _. unfold default_dom in E. destruct (vty v); try discriminate; injection E as <-.
      all: first [split; intros _; eexists; first [exact E1|exact E2|exact E3|exact (proj2 Fin0)] | idtac]. }
    assert (D0 : forall x, imem x i <-> dom0 (vty v) x) by (intros x; exact (dom0_default _ x i E)).
    split; [intros [U|U] x Hx; apply D0 in Hx; rewrite U in Hx; exact Hx|]. split; [|auto]. intros B. split; apply D0; rewrite B; cbn [dom0]; lra.
  - exists i_all. unfold default_dom in E. destruct (vty v) eqn:Ty; try discriminate. split; [repeat split|]. split; [intros x; split; intros _; [exact I|split; exact I]|].
    split; [congruence|]. split; [intros [|]; discriminate|]. split; [discriminate|auto].
Qed.

Lemma idx0_eq b b' v : bvars b' = bvars b -> b_idx0 b' v = b_idx0 b v.
Proof. intros E. unfold b_idx0, b_index. rewrite E. reflexivity. Qed.
Lemma sub_getv b' b v x : box_sub b' b -> imem x (b_getv b' v) -> imem x (b_getv b v).
Proof. intros [V S] H. unfold b_getv in *. rewrite <- (idx0_eq b b' v V). exact (S _ x H). Qed.
(** Old dimensions of a box that got a new variable. *)
Lemma add_getv b v w : box_ok b -> ~ In v (bvars b) -> In w (bvars b) -> b_getv (b_add b v) w = b_getv b w.
Proof.
  intros K Nv Hw. unfold b_getv. pose proof (b_add_ok b v K Nv) as Ka. assert (Va : bvars (b_add b v) = bvars b ++ [v]) by reflexivity.
  assert (Ei : b_idx0 (b_add b v) w = b_idx0 b w).
  { pose proof (idx0_nth b w Hw) as Y. pose proof (idx0_nth (b_add b v) w ltac:(rewrite Va; apply in_or_app; left; exact Hw)) as Z. rewrite Va in Z.
    assert (Y' : nth_error (bvars b ++ [v]) (b_idx0 b w) = Some w) by (rewrite nth_error_app1; [exact Y|apply nth_error_Some; congruence]).
    pose proof (proj1 Ka) as Nd'. rewrite Va in Nd'. rewrite NoDup_nth_error in Nd'. apply Nd'; [apply nth_error_Some; congruence|congruence]. }
  rewrite Ei. apply b_add_old; auto. assert (X : nth_error (bvars b) (b_idx0 b w) = Some w) by (apply idx0_nth; exact Hw). apply nth_error_Some. congruence.
Qed.
Lemma add_new_getv b v w : box_ok b -> In w (bvars b) -> b_getv (b_add_new b v) w = b_getv b w.
Proof. intros K Hw. unfold b_add_new. destruct (b_has b v) eqn:E; [reflexivity|]. apply add_getv; auto. apply nohas. exact E. Qed.
Lemma add_news_getv vs : forall b w, box_ok b -> In w (bvars b) -> In w (bvars (fold_left b_add_new vs b)) /\ b_getv (fold_left b_add_new vs b) w = b_getv b w.
Proof.
  induction vs as [|v vs IH]; intros b w K Hw; cbn [fold_left]; [auto|]. destruct (IH (b_add_new b v) w) as [A B]; [apply add_new_ok; exact K|apply add_new_vars; auto|].
  split; [exact A|]. rewrite B. apply add_new_getv; auto.
Qed.
Lemma new_getv b v : box_ok b -> ~ In v (bvars b) -> b_getv (b_add b v) v = match default_dom (vty v) with Some d => d | None => if Nat.eqb (length (bvars b)) 0 then b_get b 0 else i_all end.
Proof. intros K Nv. unfold b_getv. rewrite b_add_index by auto. apply b_add_new_comp; auto. Qed.

Lemma i_ok_mem l u : i_ok (IV l u) -> exists x, imem x (IV l u).
Proof.
  intros K. destruct (i_ok_nan _ _ K) as [Nl Nu]. destruct K as (H1 & H2 & H3). pose proof (dle_true l u H1) as Le.
  destruct (is_finite l) eqn:Fl; [exists (B2R l)|destruct (is_finite u) eqn:Fu; [exists (B2R u)|exists 0%R]].
  - cbn [imem]. rewrite <- (finite_d2e _ Fl). split; [destruct (d2e l); cbn; auto; lra|exact Le].
  - cbn [imem]. rewrite <- (finite_d2e _ Fu). split; [exact Le|destruct (d2e u); cbn; auto; lra].
  - cbn [imem]. destruct l as [| [|] | |], u as [| [|] | |]; try discriminate; cbn; auto.
Qed.

Section Dom.
  Variables (M : interp) (D : pdom) (fold : expr -> expr -> option dbl) (K : eops) (pico : pico_t) (T : nat -> box -> list formula -> option tres).
  Variables (mid : dbl -> dbl -> dbl) (precision : dbl) (n : nat) (qa : Prop) (okA : formula -> Prop) (okV : var -> Prop).
  Hypothesis OKV_CONT : forall v, vty v = CONTINUOUS -> okV v.
  Hypothesis RC : rc_ok M.
  Hypothesis P_ok : pico_ok pico.
  Hypothesis T_ok : T_sound M D fold T qa okA okV.
  Hypothesis T_bx : T_box fold qa okA okV T.
  Hypothesis Hm : mid_ok mid.
  Hypothesis Fp : is_finite precision = true.
  Hypothesis Pp : (0 < B2R precision)%R.
  Notation step := (cx_step fold K pico T mid precision). Notation run := (cx_run fold K pico T mid precision).
  Notation linv := (linv M D fold n qa). Notation gok := (gok fold n). Notation cinv := (cinv M D fold n qa okV).
  Notation op_ok := (op_ok_q M D fold K n qa).

  Lemma assert_dims f c b saved c' b' : csim c b saved -> box_ok b -> (forall v, In v (fvF f) -> In v (bvars b)) -> finF f ->
    cx_assert fold K f c = Some c' -> csim c' b' saved ->
    forall v, In v (bvars b) -> In v (bvars b') /\ forall x, imem x (b_getv b' v) -> imem x (b_getv b v).
  Proof.
    intros H Kb Fv Fin E H' v Hv. pose proof (csim_box _ _ _ H') as Eb'. unfold cx_assert in E. rewrite (csim_box _ _ _ H) in E.
    assert (Same : c' = c -> In v (bvars b') /\ forall x, imem x (b_getv b' v) -> imem x (b_getv b v)).
    { intros ->. rewrite (csim_box _ _ _ H) in Eb'. injection Eb' as <-. auto. }
    destruct (is_true f); [injection E as E; apply Same; congruence|]. cbn [bind] in E. destruct (b_empty b); [injection E as E; apply Same; congruence|].
    assert (Set_ : forall b1, cx_set_box b1 c = Some c' -> b' = b1).
    { intros b1 E1. destruct (csim_set b1 c b saved H) as (c1 & F1 & F2 & _). rewrite F1 in E1. assert (X : c1 = c') by congruence. subst c1. rewrite (csim_box _ _ _ F2) in Eb'. congruence. }
    destruct (is_false f).
    { rewrite (Set_ _ E). split; [exact Hv|]. intros x Hx. exfalso. unfold b_getv, b_get, b_set_empty in Hx. cbn [bvals] in Hx. rewrite (map_nth (fun _ => IEmpty) (bvals b) IEmpty _) in Hx. exact Hx. }
    destruct (filter_assertion f b) as [[r b1]|] eqn:Ef; cbn [bind fst snd] in E; [|discriminate].
    destruct (filter_sub M f b r b1 RC Kb Fv Fin Ef) as [Kb1 Sb1].
    assert (Sub1 : In v (bvars b1) /\ forall x, imem x (b_getv b1 v) -> imem x (b_getv b v)).
    { split; [rewrite (proj1 Sb1); exact Hv|]. intros x. apply sub_getv. exact Sb1. }
    destruct r; try (rewrite (Set_ _ E); exact Sub1).
    destruct (ite_process fold K f (cx_next c)) as [g s].
    destruct (csim_set (fold_left b_add_new (it_vars s) b1) c b saved H) as (c1 & E1 & H1 & _). rewrite E1 in E. cbn [bind] in E.
    destruct (sat_add_formula fold g (it_next s) (cx_sat c1)) as [[t nx]|] eqn:Ea; cbn [bind] in E; [|discriminate].
    assert (X : b' = fold_left b_add_new (it_vars s) b1).
    { assert (X1 : cx_box c' = cx_box c1) by (injection E as <-; reflexivity). rewrite X1, (csim_box _ _ _ H1) in Eb'. congruence. }
    destruct (add_news_getv (it_vars s) b1 v Kb1 (proj1 Sub1)) as [A1 A2]. rewrite X. split; [exact A1|]. rewrite A2. apply Sub1.
  Qed.

  Definition xdom (g : glob) (lv : level) (p : problem) : Prop := forall v d, In (v, d) (p_doms p) -> dom_in v d (b_getv (v_box lv) v).
  Lemma typed_dom_in v l u : is_nan l = false -> is_nan u = false -> typed_dom v l u -> dom_in v (between l u) (mk_ival l u).
  Proof.
    intros Nl Nu Td. assert (E : forall x, imem x (mk_ival l u) <-> between l u x) by (intros x; exact (mk_ival_mem x l u Nl Nu)).
    assert (Ie : int_ends (IV l u) -> int_ends (mk_ival l u)) by (intros H; unfold mk_ival; destruct (_ && _)%bool; [exact H|exact I]).
    exists (mk_ival l u). split; [apply mk_ival_ok|]. split; [exact E|]. unfold typed_dom in Td. split; [|split; [|split; [|auto]]].
    - intros Nc. destruct (vty v); [contradiction|apply Ie, Td|apply Ie, Td|apply Ie, Td].
    - intros [U|U] x Hx; rewrite U in Td; apply E in Hx; apply (proj1 (proj2 Td)) || apply (proj2 Td); exact Hx.
    - intros U. rewrite U in Td. split; apply E; apply Td.
  Qed.
  Lemma declared_in (p : problem) v : mem_var v (map fst (p_doms p)) = true <-> declared p v.
  Proof. apply mem_var_In. Qed.

  Lemma xdom_declare g lv p v : gok g -> linv g lv p -> known n (g_news g) v -> xdom g lv p -> xdom g (set_box (b_add_new (v_box lv) v) lv) (declare v p).
  Proof.
    intros G L Kn X. pose proof (li_box _ _ _ _ _ _ _ _ L) as Kb.
    assert (Old : forall w d, In (w, d) (p_doms p) -> dom_in w d (b_getv (b_add_new (v_box lv) v) w)).
    { intros w d H. assert (Hw : In w (bvars (v_box lv))) by (apply (li_dcl _ _ _ _ _ _ _ _ L w); unfold declared; change w with (fst (w, d)); apply in_map; exact H).
      rewrite add_new_getv by auto. exact (X w d H). }
    unfold declare. destruct (mem_var v (map fst (p_doms p))) eqn:Em; [exact Old|]. intros w d H. cbn [p_doms] in H. apply in_app_or in H. destruct H as [H|[H|[]]]; [exact (Old w d H)|].
    injection H as <- <-. cbn [set_box v_box].
    assert (Nv : ~ In v (bvars (v_box lv))).
    { intros C. destruct (li_bv _ _ _ _ _ _ _ _ L v C) as [Y|[Y _]]; [apply declared_in in Y; congruence|]. exact (known_noint fold n g v G Kn Y). }
    unfold b_add_new. destruct (b_has (v_box lv) v) eqn:Eh; [apply has_In in Eh; contradiction|]. rewrite new_getv by auto.
    pose proof (dom0_in v) as Y. destruct (default_dom (vty v)); [exact Y|]. revert Y. apply dom_in_sub. intros x _. split; exact I.
  Qed.
  Lemma xdom_set g lv p v l u : linv g lv p -> declared p v -> is_nan l = false -> is_nan u = false -> typed_dom v l u -> xdom g lv p -> xdom g (set_box (b_setv (v_box lv) v (mk_ival l u)) lv) (set_domain v (between l u) p).
  Proof.
    intros L Dv Nl Nu Td X w d H. pose proof (li_box _ _ _ _ _ _ _ _ L) as Kb. destruct (li_dcl _ _ _ _ _ _ _ _ L v Dv) as [_ Hv].
    unfold set_domain in H. cbn [p_doms] in H. apply in_map_iff in H. destruct H as ([w' d'] & E & H). cbn [fst] in E. cbn [set_box v_box].
    destruct (var_eqb v w') eqn:Ev.
    - injection E as <- <-. rewrite getv_setv_eq by auto. apply typed_dom_in; auto.
    - injection E as -> ->. assert (Hw : In w (bvars (v_box lv))) by (apply (li_dcl _ _ _ _ _ _ _ _ L w); unfold declared; change w with (fst (w, d)); apply in_map; exact H).
      rewrite getv_setv_ne; auto. intros ->. rewrite (proj2 (var_eqb_eq w w) eq_refl) in Ev. discriminate.
  Qed.
  Lemma xdom_step g c b saved p ps o c' a g' b' : cinv g c b saved p ps -> xdom g (lev c b) p -> op_ok (g_news g) p o -> op_typed o -> step o c = Some (c', a) ->
    cinv g' c' b' saved (fst (p_step o (p, ps))) ps -> gext g g' -> g_news g' = news_step o (g_news g) -> o <> OPush -> o <> OPop -> xdom g' (lev c' b') (fst (p_step o (p, ps))).
  Proof.
    intros C X Ok Ty E C' Ge Nw N1 N2. pose proof C as C0. destruct C0 as [I1 I2 I3 I4 I5 I6 I7 I8]. pose proof (ci_sim _ _ _ _ _ _ _ _ _ _ _ _ C') as S'. pose proof (csim_box _ _ _ S') as Eb'.
    assert (Bx : forall b1, csim c' b1 saved -> b1 = b') by (intros b1 H; pose proof (csim_box _ _ _ H); congruence).
    destruct o; cbn [cx_step op_ok_q op_typed p_step fst snd news_step] in *; try contradiction.
    - destruct (Nat.eqb _ _); [|discriminate]. injection E as <- _. rewrite <- (Bx b (next_sim _ _ _ _ I1)). exact X.
    - destruct (cx_declare v model c) as [c1|] eqn:E1; cbn [bind] in E; [|discriminate]. injection E as <- _.
      destruct (declare_sim _ _ _ _ _ _ I1 E1) as (S1 & S2 & S3 & S4). rewrite <- (Bx _ S1). exact (xdom_declare g (lev c b) p v I2 I6 Ok X).
    - destruct (cx_declare v model c) as [c1|] eqn:E1; cbn [bind] in E; [|discriminate]. destruct (cx_set_interval v l u c1) as [c2|] eqn:E2; cbn [bind] in E; [|discriminate].
      injection E as <- _. destruct Ok as (O1 & O2 & O3).
      destruct (declare_sim _ _ _ _ _ _ I1 E1) as (S1 & S2 & S3 & S4). destruct (set_interval_sim _ _ _ _ _ _ _ S1 E2) as (U1 & U2 & U3 & U4). rewrite <- (Bx _ U1).
      pose proof (linv_declare M D fold n qa g (lev c b) p v I2 O1 I6) as L1.
      assert (Dv : declared (declare v p) v).
      { unfold declare. destruct (mem_var v (map fst (p_doms p))) eqn:Em; [apply declared_in; exact Em|]. unfold declared. cbn [p_doms]. rewrite map_app. apply in_or_app. right. left. reflexivity. }
      exact (xdom_set g _ (declare v p) v l u L1 Dv (proj1 O3) (proj1 (proj2 O3)) Ty (xdom_declare g (lev c b) p v I2 I6 O1 X)).
    - destruct (cx_set_interval v l u c) as [c2|] eqn:E2; cbn [bind] in E; [|discriminate]. injection E as <- _. destruct Ok as (O1 & O2 & O3).
      destruct (set_interval_sim _ _ _ _ _ _ _ I1 E2) as (U1 & U2 & U3 & U4). rewrite <- (Bx _ U1). exact (xdom_set g (lev c b) p v l u I6 O1 (proj1 O3) (proj1 (proj2 O3)) Ty X).
    - destruct (cx_assert fold K f c) as [c1|] eqn:E1; cbn [bind] in E; [|discriminate]. injection E as <- _. destruct Ok as [Wf Ie].
      assert (Fv : forall v, In v (fvF f) -> In v (bvars b)).
      { intros v Hv. apply (li_dcl _ _ _ _ _ _ _ _ I6 v). destruct (proj2 (wf_fv _ _ _) f Wf v Hv) as [Y|Y]; apply Y. }
      intros v d H. assert (Hw : In v (bvars b)) by (apply (li_dcl _ _ _ _ _ _ _ _ I6 v); unfold declared; change v with (fst (v, d)); apply in_map; exact H).
      destruct (assert_dims f c b saved c1 b' I1 (li_box _ _ _ _ _ _ _ _ I6) Fv (wfF_fin _ _ _ f Wf) E1 S' v Hw) as [_ Y]. exact (dom_in_sub v d _ _ Y (X v d H)).
    - destruct (cx_check fold pico T mid precision fuel c) as [[r c1]|] eqn:E1; cbn [bind fst snd] in E; [|discriminate]. injection E as <- _.
      rewrite <- (Bx b (proj1 (check_sim _ _ _ _ _ _ _ _ _ _ _ I1 E1))). exact X.
  Qed.

  (** The accepted box. *)
  Lemma accepted_dims g c b saved p ps B : cinv g c b saved p ps ->
    ((sv_vec (cx_stack c) = [] \/ sv_vec (cx_stack c) = [FTrue]) /\ B = b) \/ sat_answer fold T qa okA b (cx_sat c) B ->
    box_ok B /\ bvars B = bvars b /\ forall v, In v (bvars b) ->
      (forall x, imem x (b_getv B v) -> imem x (b_getv b v)) \/ (vty v = BOOLEAN /\ forall x, imem x (b_getv B v) -> x = 0%R \/ x = 1%R).
  Proof.
    intros C [[_ ->]|(a & A1 & b1 & A2 & A3 & A4)].
    { split; [exact (li_box _ _ _ _ _ _ _ _ (ci_lev _ _ _ _ _ _ _ _ _ _ _ _ C))|]. split; [reflexivity|]. intros v _. left. auto. }
    assert (Bs : box_ok B /\ box_sub B b1).
    { destruct A4 as [[_ ->]|(t & fs & E & _ & Hl)]; [split; [apply A2|split; auto]|].
      destruct (T_bx t b1 fs B (bd_ok _ _ A2) (bd_rng _ _ A2)) as (X1 & X2 & _); auto. intros v Hv. rewrite (bd_vars _ _ A2) in Hv.
      destruct (li_bv _ _ _ _ _ _ _ _ (ci_lev _ _ _ _ _ _ _ _ _ _ _ _ C) v Hv) as [H|[_ H]]; [exact (ci_dcl _ _ _ _ _ _ _ _ _ _ _ _ C p v (or_introl eq_refl) H)|]. exact (OKV_CONT v H). }
    destruct Bs as [Kb Sb]. split; [exact Kb|]. split; [rewrite (proj1 Sb); apply A2|]. intros v Hv.
    assert (Sv : forall x, imem x (b_getv B v) -> imem x (b_getv b1 v)) by (intros x; apply sub_getv; exact Sb).
    destruct (vty v) eqn:Ty; try (left; intros x Hx; rewrite <- (bd_same _ _ A2 v Hv) by congruence; exact (Sv x Hx)).
    destruct (bd_bool _ _ A2 v Hv Ty) as [E|[x E]]; [left; intros y Hy; rewrite <- E; exact (Sv y Hy)|]. right. split; [reflexivity|]. intros y Hy. apply Sv in Hy. rewrite E in Hy.
    destruct x.
    - right. apply (point_mem 1) in Hy; [exact Hy|cbn; lia].
    - left. unfold i_point in Hy. apply mk_ival_mem in Hy; [|reflexivity|reflexivity]. destruct Hy as [H1 H2]. cbn in H1, H2. lra.
  Qed.
  Lemma tighten_empty t : tighten_dim mid precision t IEmpty = Some IEmpty.
  Proof.
    unfold tighten_dim. assert (E : dgt (i_diam IEmpty) precision = false); [|rewrite E; reflexivity]. cbn [i_diam]. destruct (dgt dzero precision) eqn:E; [|reflexivity].
    unfold dgt in E. apply dlt_true in E. rewrite (finite_d2e _ Fp) in E. change (d2e dzero) with (Fin 0) in E. apply ext_lt_fin in E. lra.
  Qed.

  (** The reported model, from the accepted box. *)
  Lemma model_dims_full g c b saved p ps k m c' : cinv g c b saved p ps -> (forall v a, In (v, a) (ss_pa (cx_sat c)) -> okA a) ->
    cx_check fold pico T mid precision k c = Some (Some m, c') ->
    exists B B1, (((sv_vec (cx_stack c) = [] \/ sv_vec (cx_stack c) = [FTrue]) /\ B = b) \/ sat_answer fold T qa okA b (cx_sat c) B) /\ accepted_box T b B /\ b_empty B = false /\ box_ok B /\ bvars B = bvars b /\ m = extract_model (cx_mvars c) B1 /\ box_ok B1 /\ bvars B1 = bvars b /\
      (forall v, In v (bvars b) -> (forall x, imem x (b_getv B v) -> imem x (b_getv b v)) \/ (vty v = BOOLEAN /\ forall x, imem x (b_getv B v) -> x = 0%R \/ x = 1%R)) /\
      forall v, In v (bvars b) -> (i_empty (b_getv B v) = true -> b_getv B1 v = IEmpty) /\ (i_empty (b_getv B v) = false -> tight_ok precision (vty v) (b_getv B v) (b_getv B1 v)).
  Proof.
    intros C HA E. pose proof (ci_lev _ _ _ _ _ _ _ _ _ _ _ _ C) as L.
    destruct (check_answer M D fold pico T mid precision n qa okA okV OKV_CONT P_ok T_ok g c b saved p ps k m c' C HA E) as (Nb & _ & B & B1 & Et & Em & Hb).
    destruct (accepted_dims g c b saved p ps B C Hb) as (Kb & Vb & Db). destruct (tighten_spec mid precision B B1 Kb Et) as (V1 & L1 & T1).
    assert (Td : forall v, In v (bvars B) -> i_ok (b_getv B1 v) /\ (i_empty (b_getv B v) = true -> b_getv B1 v = IEmpty) /\ (i_empty (b_getv B v) = false -> tight_ok precision (vty v) (b_getv B v) (b_getv B1 v))).
    { intros v Hv. specialize (T1 v Hv). destruct (i_empty (b_getv B v)) eqn:Ee.
      - destruct (b_getv B v); [|discriminate]. rewrite tighten_empty in T1. assert (Y : b_getv B1 v = IEmpty) by congruence. rewrite Y. split; [exact I|]. split; [auto|discriminate].
      - destruct (tighten_dim_ok mid precision Hm Fp Pp (vty v) _ _ (b_getv_ok B v Kb) Ee T1) as (Y1 & Y2 & Y3). split; [exact Y1|]. split; [discriminate|auto]. }
    assert (K1 : box_ok B1).
    { destruct Kb as (N1 & N2 & N3). split; [rewrite V1; exact N1|]. split; [rewrite L1, V1; exact N2|]. apply Forall_forall. intros i Hi. destruct (In_nth _ _ IEmpty Hi) as (j & Hj & Ej).
      destruct (nth_error (bvars B) j) as [v|] eqn:Ev.
      - assert (Hv : In v (bvars B)) by (eapply nth_error_In; eauto). destruct (Td v Hv) as [Y _]. unfold b_getv, b_get in Y.
        assert (Ej' : b_idx0 B1 v = j).
        { pose proof (idx0_nth B1 v ltac:(rewrite V1; exact Hv)) as Z. rewrite V1 in Z. rewrite NoDup_nth_error in N1. apply N1; [apply nth_error_Some; congruence|congruence]. }
        rewrite Ej', Ej in Y. exact Y.
      - apply nth_error_None in Ev. rewrite L1, N2 in Hj. assert (Z0 : bvars B = []) by (destruct (bvars B); [reflexivity|cbn [length] in *; lia]).
        unfold tighten in Et. rewrite Z0 in Et. cbn [tighten_dims bind] in Et. assert (Y : B1 = mkBox [] (bvals B)) by congruence. subst B1. cbn [bvals] in Hi. rewrite Forall_forall in N3. exact (N3 i Hi). }
    exists B, B1. split; [exact Hb|]. split; [|split; [|split; [exact Kb|split; [exact Vb|split; [exact Em|split; [exact K1|split; [congruence|split; [exact Db|]]]]]]]].
    - destruct Hb as [[_ ->]|(a & _ & b1 & A2 & _ & A4)]; [exists b; auto|]. exists b1. split; [apply A2|]. split; [apply A2|].
      destruct A4 as [[_ ->]|(t & fs & Ea & _ & Hl)]; [left; reflexivity|]. right.
      destruct (T_bx t b1 fs B (bd_ok _ _ A2) (bd_rng _ _ A2)) as (X1 & X2 & _); eauto. intros v Hv. rewrite (bd_vars _ _ A2) in Hv.
      destruct (li_bv _ _ _ _ _ _ _ _ L v Hv) as [H|[_ H]]; [exact (ci_dcl _ _ _ _ _ _ _ _ _ _ _ _ C p v (or_introl eq_refl) H)|exact (OKV_CONT v H)].
    - destruct Hb as [[_ ->]|(a & _ & b1 & A2 & _ & A4)]; [exact Nb|].
      destruct A4 as [[_ ->]|(t & fs & Ea & _ & Hl)].
      + destruct (bvars b) as [|v vs] eqn:Ev; [rewrite (bd_nil _ _ A2 Ev); exact Nb|].
        assert (Hv : In v (bvars b)) by (rewrite Ev; left; reflexivity).
        assert (I0 : b_idx0 b v = 0) by (unfold b_idx0, b_index; rewrite Ev; cbn [index_of]; rewrite (proj2 (var_eqb_eq v v) eq_refl); reflexivity).
        assert (I1 : b_idx0 b1 v = 0) by (rewrite (idx0_eq b b1 v (bd_vars _ _ A2)); exact I0).
        assert (X : b_getv b1 v = b_getv b v \/ exists x : bool, b_getv b1 v = i_point (if x then dZ 1 else dzero)).
        { destruct (vty v) eqn:Ty; try (left; apply (bd_same _ _ A2 v Hv); congruence). exact (bd_bool _ _ A2 v Hv Ty). }
        unfold b_getv in X. rewrite I0, I1 in X. change (b_empty b) with (i_empty (b_get b 0)) in Nb. change (b_empty b1) with (i_empty (b_get b1 0)). destruct X as [->|[x ->]]; [exact Nb|]. destruct x; reflexivity.
      + destruct (T_bx t b1 fs B (bd_ok _ _ A2) (bd_rng _ _ A2)) as (_ & _ & X3); auto. intros v Hv. rewrite (bd_vars _ _ A2) in Hv.
        destruct (li_bv _ _ _ _ _ _ _ _ L v Hv) as [H|[_ H]]; [exact (ci_dcl _ _ _ _ _ _ _ _ _ _ _ _ C p v (or_introl eq_refl) H)|exact (OKV_CONT v H)].
    - intros v Hv. rewrite <- Vb in Hv. exact (proj2 (Td v Hv)).
  Qed.
  Lemma model_dims g c b saved p ps k m c' : cinv g c b saved p ps -> (forall v a, In (v, a) (ss_pa (cx_sat c)) -> okA a) ->
    cx_check fold pico T mid precision k c = Some (Some m, c') ->
    exists B B1, accepted_box T b B /\ b_empty B = false /\ box_ok B /\ bvars B = bvars b /\ m = extract_model (cx_mvars c) B1 /\ box_ok B1 /\ bvars B1 = bvars b /\
      (forall v, In v (bvars b) -> (forall x, imem x (b_getv B v) -> imem x (b_getv b v)) \/ (vty v = BOOLEAN /\ forall x, imem x (b_getv B v) -> x = 0%R \/ x = 1%R)) /\
      forall v, In v (bvars b) -> (i_empty (b_getv B v) = true -> b_getv B1 v = IEmpty) /\ (i_empty (b_getv B v) = false -> tight_ok precision (vty v) (b_getv B v) (b_getv B1 v)).
  Proof. intros C HA E. destruct (model_dims_full g c b saved p ps k m c' C HA E) as (B & B1 & _ & H). exists B, B1. exact H. Qed.
  Lemma xdom_ans g c b saved p ps ms k r c' : cinv g c b saved p ps -> xdom g (lev c b) p -> marked c ms -> (forall v a, In (v, a) (ss_pa (cx_sat c)) -> okA a) ->
    cx_check fold pico T mid precision k c = Some (r, c') -> model_ok p ms r.
  Proof.
    intros C X [Nm Mk] HA E m ->. pose proof (ci_lev _ _ _ _ _ _ _ _ _ _ _ _ C) as L.
    destruct (model_dims g c b saved p ps k m c' C HA E) as (B & B1 & _ & _ & Kb & Vb & Em & K1 & V1 & Db & Td).
    destruct (extract_spec (cx_mvars c) B1 K1) as (X1 & X2 & X3 & X4). rewrite <- Em in X1, X2, X3, X4.
    assert (Dcl : forall v, declared p v -> In v (bvars B1)) by (intros v Hv; rewrite V1; apply (li_dcl _ _ _ _ _ _ _ _ L v Hv)).
    split; [intros v H1 H2; apply X2; [apply Dcl; exact H1|apply Mk; exact H2]|]. split.
    - intros H v Hv. apply Mk. apply (X4 Nm); [|exact Hv]. intros w Hw. apply Dcl, H, Mk, Hw.
    - intros v d x Hd Hv Hx. destruct (X3 v Hv) as [Hv1 Eg]. rewrite Eg in Hx. rewrite V1 in Hv1.
      destruct (X v d Hd) as (dv & D1 & D2 & D3 & D4 & D5 & D6). cbn [lev v_box] in D6. apply D2.
      assert (Bv : forall y, imem y (b_getv B v) -> imem y dv).
      { destruct (Db v Hv1) as [Y|[Ty Y]]; [intros y Hy; apply D6, Y, Hy|]. intros y Hy. destruct (D5 Ty) as [Z0 Z1]. destruct (Y y Hy) as [->| ->]; assumption. }
      destruct (Td v Hv1) as (Y2 & Y3). destruct (i_empty (b_getv B v)) eqn:Ee; [rewrite (Y2 eq_refl) in Hx; destruct Hx|]. specialize (Y3 eq_refl). destruct Y3 as [_ Y3].
      destruct (vty v) eqn:Ty.
      + apply Bv. apply Y3. exact Hx.
      + destruct Y3 as (_ & _ & Y3). apply (Y3 dv D1); auto. apply D3. discriminate.
      + destruct Y3 as (_ & _ & Y3). apply (Y3 dv D1); auto; [apply D3; discriminate|apply D4; left; reflexivity].
      + destruct Y3 as (_ & _ & Y3). apply (Y3 dv D1); auto; [apply D3; discriminate|apply D4; right; reflexivity].
  Qed.
  Theorem tight_run ops c a k m c' : run ops (cx_init n) = Some (c, a) -> admissible_q M D fold K n qa ops [] (p_empty, []) -> Forall (op_okV okV) ops ->
    (forall v f, In (v, f) (ss_pa (cx_sat c)) -> okA f) -> cx_check fold pico T mid precision k c = Some (Some m, c') ->
    exists b B, cx_box c = Some b /\ accepted_box T b B /\ b_empty B = false /\
      forall v, In v (bvars m) -> In v (bvars B) /\
        ((exists x, imem x (b_getv B v)) -> tight_ok precision (vty v) (b_getv B v) (b_getv m v)) /\ ((forall x, ~ imem x (b_getv B v)) -> forall x, ~ imem x (b_getv m v)).
  Proof.
    intros E Ad Vk HA Ec.
    destruct (proj1 (run_inv M D fold K pico T mid precision n qa okA okV OKV_CONT RC P_ok T_ok ops _ _ _ _ _ _ c a (init_inv M D fold n qa okV) Ad Vk E HA)) as (g & b & saved & p & ps & C).
    destruct (model_dims g c b saved p ps k m c' C HA Ec) as (B & B1 & Ha & Nb & Kb & Vb & Em & K1 & V1 & Db & Td).
    exists b, B. split; [exact (csim_box _ _ _ (ci_sim _ _ _ _ _ _ _ _ _ _ _ _ C))|]. split; [exact Ha|]. split; [exact Nb|]. intros v Hv.
    destruct (extract_spec (cx_mvars c) B1 K1) as (X1 & X2 & X3 & X4). rewrite <- Em in X1, X2, X3, X4. destruct (X3 v Hv) as [Hv1 Eg]. rewrite Eg. rewrite V1 in Hv1. destruct (Td v Hv1) as [T1 T2].
    split; [congruence|]. pose proof (b_getv_ok B v Kb) as Ki. split.
    - intros [x Hx]. apply T2. destruct (b_getv B v); [destruct Hx|reflexivity].
    - intros H. destruct (i_empty (b_getv B v)) eqn:Ee; [rewrite (T1 eq_refl); intros x []|]. exfalso. destruct (b_getv B v) as [|l u] eqn:Eb; [discriminate|].
      destruct (i_ok_mem l u Ki) as [x Hx]. exact (H x Hx).
  Qed.
  Theorem model_run ops c a : run ops (cx_init n) = Some (c, a) -> admissible_q M D fold K n qa ops [] (p_empty, []) -> Forall (op_okV okV) ops -> Forall op_typed ops ->
    (forall v f, In (v, f) (ss_pa (cx_sat c)) -> okA f) ->
    Forall2 (fun q r => model_ok (fst q) (snd q) r) (checks ops (p_empty, []) []) a.
  Proof.
    intros E Ad Vk Ty HA.
    apply (run_extra M D fold K pico T mid precision n qa okA okV OKV_CONT RC P_ok T_ok xdom (fun _ o => op_typed o) model_ok) with (c := cx_init n) (c' := c) (b := box0) (saved := []) (ps := []) (g := {| g_news := []; g_int := []; g_pa := []; g_nx := n; g_mx := 0 |}); auto.
    - intros. exact (xdom_step _ _ _ _ _ _ _ _ _ _ _ H H0 H1 H2 H3 H4 H5 H6 H7 H8).
    - intros. exact (xdom_ans _ _ _ _ _ _ _ _ _ _ H H0 H1 H2 H3).
    - exact (init_inv M D fold n qa okV).
    - intros v d [].
    - split; [constructor|]. intros v. cbn. tauto.
    - clear -Ty. generalize (p_empty, @nil problem). induction Ty; intros st; cbn [xadm]; auto.
  Qed.
End Dom.
