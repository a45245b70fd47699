(** * Every delta-sat answer along a history (behind C02) *)
From Coq Require Import ZArith Reals Lra Lia List Bool Arith Classical.
From Flocq Require Import IEEE754.BinarySingleNaN.
From Verif Require Import Dbl DblProofs Syntax Sem SemProofs FormulaCons FormulaConsProofs SpecForm Nnf NnfProofs PredAbs PredAbsProofs Tseitin TseitinProofs ConsUnfolded
  Scoped SpecScoped ScopedProofs Interval IntervalProofs MathConv IEval IEvalProofs Contr ContrProofs Icp IcpTop Filter FilterProofs Theory TheoryProofs TheoryTop SpecWeak TheorySat
  IteElim SpecIte IteElimProofs Regular RegularProofs Wff WffProofs Sat Context CtxStruct SatSem SatReach CdclProofs SpecCtx CtxBox CtxSem CtxRun CtxInv SpecModel CtxModel CtxSat CtxHom CtxDom CtxTop CtxModelTop CtxDelta CtxDeltaVal.
Import ListNotations.
Local Notation R := Rdefinitions.R.

Definition exc0 (delta : R) (x y : expr) (_ : env) : Prop := ~ bounds_small delta (FRel RGt x y).
Definition implied (pa : list (var * formula)) (sl : slev) (f : formula) : Prop := forall E, hom E -> edefs E pa ->
  (forall L, In L (l_cls sl) -> ctrue (fun v => E (FVar v)) (l_sym sl) L) -> E f.

Lemma filt_lit f : is_simple_relational f = true -> exists o x y, lit_op f = Some o /\ lit_sides f = Some (x, y) /\ fvF f <> [].
Proof.
  induction f as [| |v|o a c|gs|gs|g IH|vs g]; intros H; try discriminate H.
  - exists o, a, c. split; [reflexivity|]. split; [reflexivity|]. cbn [is_simple_relational] in H. destruct a, c; try discriminate H; cbn [fvF fvE]; discriminate.
  - destruct (IH H) as (o & x & y & E1 & E2 & E3). exists (relop_neg o), x, y. cbn [lit_op lit_sides fvF]. rewrite E1. auto.
Qed.
Lemma filt_same f : forall pol b r b', filt f pol b = Some (r, b') -> is_simple_relational f = false -> b' = b.
Proof.
  induction f as [| |v|o a c|gs|gs|g IH|vs g]; intros pol b r b' E S; try (injection E as _ <-; reflexivity); [|cbn [filt] in E; eauto].
  cbn [filt] in E. cbn [is_simple_relational] in S. unfold filt_eq, filt_gt, filt_geq in E.
  destruct o; destruct a, c; try discriminate S; try (injection E as _ <-; reflexivity); destruct pol; injection E as _ <-; reflexivity.
Qed.
Lemma tse_fold_inv (l : list (var * formula)) : forall t v, rd var_eqb (fold_left (fun m p => ss_insert var_eqb (fst p) tt m) l t) v <> None ->
  In v (map fst l) \/ rd var_eqb t v <> None.
Proof.
  induction l as [|[w a] l IH]; intros t v H; cbn [fold_left map fst In] in *; [right; exact H|].
  destruct (IH _ _ H) as [X|X]; [left; right; exact X|]. rewrite (rd_sinsert var_eqb var_eqb_spec') in X. destruct (var_eqb_spec' v w) as [->|]; [left; left; reflexivity|right; exact X].
Qed.

Lemma holds_hom M rho : hom (fun f => holds M f rho).
Proof.
  split; try (cbn [holds]; tauto).
  - intros fs. apply holds_and_in.
  - intros fs. apply holds_or_in.
  - intros o a b. cbn [holds]. destruct o; cbn [neg_relop relR]; lra || tauto.
Qed.

Section Run.
  Variables (M : interp) (D : pdom) (fold : expr -> expr -> option dbl) (K : eops) (pico : pico_t) (T : nat -> box -> list formula -> option tres).
  Variables (mid : dbl -> dbl -> dbl) (precision : dbl) (n : nat) (okV : var -> Prop).
  Notation okA := (fun _ : formula => True).
  Hypothesis OKV_CONT : forall v, vty v = CONTINUOUS -> okV v.
  Hypothesis RC : rc_ok M.
  Hypothesis P_ok : pico_ok pico.
  Hypothesis T_ok : T_sound M D fold T False okA okV.
  Hypothesis T_bx : T_box fold False okA okV T.
  Hypothesis T_wk : T_weak M D fold mid precision T.
  Hypothesis Hm : mid_ok mid.
  Hypothesis Fp : is_finite precision = true.
  Hypothesis Pp : (0 < B2R precision)%R.
  Notation step := (cx_step fold K pico T mid precision). Notation run := (cx_run fold K pico T mid precision).
  Notation linv := (linv M D fold n False). Notation gok := (gok fold n). Notation cinv := (cinv M D fold n False okV).
  Notation op_ok := (op_ok M D fold K n).
  Notation delta := (B2R precision).

  Definition absorbed (b : box) (f : formula) : Prop := b_empty b = false -> (forall v, In v (fvF f) -> vty v <> BOOLEAN) /\
    forall rho, (forall v, In v (fvF f) -> imem (rho v) (b_getv b v)) -> weakened M delta (exc0 delta) true f rho.
  Definition status (g : glob) (lv : level) (f : formula) : Prop :=
    (forall E, hom E -> E f) \/ absorbed (v_box lv) f \/
    exists gg, In gg (v_stack lv) /\ (forall E, hom E -> E gg -> E f) /\ implied (g_pa g) (v_sat lv) f.
  Record xdelta (g : glob) (lv : level) (p : problem) : Prop := {
    xd_emp : b_empty (v_box lv) = true -> bvars (v_box lv) <> [];
    xd_tse : forall v, l_tse (v_sat lv) v <> None -> n <= vid v < g_nx g /\ ~ In v (g_news g);
    xd_fs : forall f, In f (p_asserts p) -> qf f = true /\ (forall v, In v (fvF f) -> declared p v) /\ status g lv f }.

  Lemma status_mono g g' lv f : incl (g_pa g) (g_pa g') -> status g lv f -> status g' lv f.
  Proof.
    intros I [H|[H|(gg & H1 & H2 & H3)]]; [left; exact H|right; left; exact H|]. right. right. exists gg. split; [exact H1|]. split; [exact H2|].
    intros E HE Df. apply (H3 E HE). intros b d Hd. apply Df. exact (I _ Hd).
  Qed.
  Lemma tse_mono g g' v : gext g g' -> n <= vid v < g_nx g /\ ~ In v (g_news g) -> n <= vid v < g_nx g' /\ ~ In v (g_news g').
  Proof. intros Ge [H1 H2]. pose proof (ge_nx _ _ Ge). split; [lia|]. intros C. destruct (ge_nn _ _ Ge v C); [auto|lia]. Qed.
  Lemma xdelta_mono g g' lv p : gext g g' -> linv g lv p -> xdelta g lv p -> xdelta g' lv p.
  Proof.
    intros Ge _ [X1 X2 X3]. split; [exact X1| |].
    - intros v Hv. exact (tse_mono g g' v Ge (X2 v Hv)).
    - intros f Hf. destruct (X3 f Hf) as (A1 & A2 & A3). split; [exact A1|]. split; [exact A2|]. exact (status_mono g g' lv f (ge_pa _ _ Ge) A3).
  Qed.

  (** The box is changed; the rest stays. *)
  Lemma xdelta_box g lv p p' b' : xdelta g lv p -> p_asserts p' = p_asserts p -> (forall v, declared p v -> declared p' v) -> (b_empty b' = true -> bvars b' <> []) ->
    (b_empty b' = false -> p_asserts p <> [] -> b_empty (v_box lv) = false) ->
    (forall f v, In f (p_asserts p) -> In v (fvF f) -> forall x, imem x (b_getv b' v) -> imem x (b_getv (v_box lv) v)) ->
    xdelta g (set_box b' lv) p'.
  Proof.
    intros [X1 X2 X3] Ea Ed E1 E2 E3. split; [exact E1|exact X2|]. rewrite Ea. intros f Hf. destruct (X3 f Hf) as (A1 & A2 & A3). split; [exact A1|]. split; [auto|].
    destruct A3 as [H|[H|H]]; [left; exact H| |right; right; exact H]. right. left. intros Ne. cbn [set_box v_box] in *.
    destruct (H (E2 Ne ltac:(intros C; rewrite C in Hf; exact Hf))) as [H1 H2]. split; [exact H1|]. intros rho Hr. apply H2. intros v Hv. apply (E3 f v Hf Hv). auto.
  Qed.
  Lemma first_empty b v l : bvars b = v :: l -> b_empty b = i_empty (b_getv b v).
  Proof. intros E. rewrite b_empty_get. unfold b_getv, b_idx0, b_index. rewrite E. cbn [index_of]. rewrite (proj2 (var_eqb_eq v v) eq_refl). reflexivity. Qed.
  Lemma add_new_cons b v w l : bvars b = w :: l -> exists l', bvars (b_add_new b v) = w :: l'.
  Proof. intros E. unfold b_add_new. destruct (b_has b v); [exists l; exact E|]. cbn [b_add bvars]. rewrite E. exists (l ++ [v]). reflexivity. Qed.
  Lemma add_new_empty b v : box_ok b -> bvars b <> [] -> b_empty (b_add_new b v) = b_empty b.
  Proof.
    intros Kb N. destruct (bvars b) as [|w l] eqn:E; [contradiction|]. destruct (add_new_cons b v w l E) as [l' E']. rewrite (first_empty _ w l E), (first_empty _ w l' E'), add_new_getv; auto. rewrite E. left. reflexivity.
  Qed.
  Lemma xdelta_declare g lv p v : linv g lv p -> xdelta g lv p -> xdelta g (set_box (b_add_new (v_box lv) v) lv) (declare v p).
  Proof.
    intros L X. pose proof (li_box _ _ _ _ _ _ _ _ L) as Kb. apply (xdelta_box g lv p); auto.
    - unfold declare. destruct (mem_var v (map fst (p_doms p))); reflexivity.
    - intros w Hw. unfold declare. destruct (mem_var v (map fst (p_doms p))); [exact Hw|]. unfold declared. cbn [p_doms]. rewrite map_app. apply in_or_app. left. exact Hw.
    - intros _ C. assert (Hv : In v (bvars (b_add_new (v_box lv) v))) by (apply add_new_vars; right; reflexivity). rewrite C in Hv. destruct Hv.
    - intros E _. destruct (b_empty (v_box lv)) eqn:Ee; [|reflexivity]. rewrite (add_new_empty (v_box lv) v Kb (xd_emp _ _ _ X Ee)) in E. congruence.
    - intros f w Hf Hw x. destruct (xd_fs _ _ _ X f Hf) as (_ & A2 & _). rewrite add_new_getv; auto. apply (li_dcl _ _ _ _ _ _ _ _ L w). auto.
  Qed.
  Lemma xdelta_set g lv p v i d : linv g lv p -> declared p v -> i_ok i -> (p_asserts p <> [] -> (forall f, In f (p_asserts p) -> ~ In v (fvF f)) /\ (b_empty (v_box lv) = true -> exists w l, bvars (v_box lv) = w :: l /\ w <> v)) ->
    xdelta g lv p -> xdelta g (set_box (b_setv (v_box lv) v i) lv) (set_domain v d p).
  Proof.
    intros L Dv Ki Hv X. pose proof (li_box _ _ _ _ _ _ _ _ L) as Kb. destruct (li_dcl _ _ _ _ _ _ _ _ L v Dv) as [_ Iv]. apply (xdelta_box g lv p); auto.
    - intros w Hw. unfold declared in *. cbn [set_domain p_doms]. rewrite map_map. apply in_map_iff in Hw. destruct Hw as ([w' d'] & <- & H). apply in_map_iff. exists (w', d'). split; [|exact H].
      cbn [fst]. destruct (var_eqb v w') eqn:E; [apply var_eqb_eq in E; exact E|reflexivity].
    - intros _ C. change (bvars (v_box lv) = []) in C. rewrite C in Iv. destruct Iv.
    - intros E Na. destruct (Hv Na) as [_ H]. destruct (b_empty (v_box lv)) eqn:Ee; [|reflexivity]. destruct (H eq_refl) as (w & l & Ew & Nw).
      rewrite (first_empty (b_setv (v_box lv) v i) w l Ew) in E. rewrite getv_setv_ne in E; auto; [|rewrite Ew; left; reflexivity]. rewrite <- (first_empty (v_box lv) w l Ew) in E. congruence.
    - intros f w Hf Hw x. destruct (Hv ltac:(intros C; rewrite C in Hf; exact Hf)) as [H _]. destruct (xd_fs _ _ _ X f Hf) as (_ & A2 & _).
      rewrite getv_setv_ne; auto; [apply (li_dcl _ _ _ _ _ _ _ _ L w); auto|]. intros ->. exact (H f Hf Hw).
  Qed.

  Lemma status_keep g g' lv lv' f : incl (v_stack lv) (v_stack lv') -> (b_empty (v_box lv') = false -> b_empty (v_box lv) = false) ->
    (forall v, In v (fvF f) -> forall x, imem x (b_getv (v_box lv') v) -> imem x (b_getv (v_box lv) v)) ->
    (implied (g_pa g) (v_sat lv) f -> implied (g_pa g') (v_sat lv') f) -> status g lv f -> status g' lv' f.
  Proof.
    intros Is Ie Iv Ii [H|[H|(gg & H1 & H2 & H3)]]; [left; exact H|right; left|right; right].
    - intros Ne. destruct (H (Ie Ne)) as [A1 A2]. split; [exact A1|]. intros rho Hr. apply A2. intros v Hv. apply (Iv v Hv). auto.
    - exists gg. split; [exact (Is _ H1)|]. split; [exact H2|exact (Ii H3)].
  Qed.
  Lemma implied_same pa pa' sl f : incl pa pa' -> implied pa sl f -> implied pa' sl f.
  Proof. intros I H E HE Df. apply (H E HE). intros b d Hd. exact (Df b d (I _ Hd)). Qed.

  (** A bound taken into the box. *)
  Lemma absorbed_filter p (bq : var -> Prop) f b r b' : box_ok b -> (forall v, In v (fvF f) -> In v (bvars b)) -> finF f ->
    wfF (fun v => declared p v /\ vty v <> BOOLEAN) (fun v => declared p v /\ vty v = BOOLEAN) bq f -> hasIteF f = false ->
    filter_assertion f b = Some (r, b') -> is_simple_relational f = true -> absorbed b' f.
  Proof.
    intros Kb Fv Fin Wf Ni E Si _. destruct (filt_lit f Si) as (o & x & y & Eo & El & _).
    destruct (IEvalProofs.lit_holds M D f o x y (fun _ => 0%R) Eo El) as (_ & _ & Sv).
    assert (Wl : wfE (fun v => declared p v /\ vty v <> BOOLEAN) (fun v => declared p v /\ vty v = BOOLEAN) bq x /\ wfE (fun v => declared p v /\ vty v <> BOOLEAN) (fun v => declared p v /\ vty v = BOOLEAN) bq y /\ hasIteE x = false /\ hasIteE y = false).
    { clear - Wf Ni El. induction f as [| |v|o' a c|gs|gs|h IH|vs h]; try discriminate El; [|apply IH; auto].
      injection El as -> ->. cbn [wfF hasIteF] in *. apply orb_false_iff in Ni. tauto. }
    destruct Wl as (W1 & W2 & N1 & N2). split.
    - intros v Hv. rewrite Sv in Hv. apply in_app_or in Hv. destruct Hv as [Hv|Hv]; [exact (proj2 (wf_noite _ _ _ x W1 N1 v Hv))|exact (proj2 (wf_noite _ _ _ y W2 N2 v Hv))].
    - intros rho Hr. destruct (classic (bounds_small delta (FRel RGt x y))) as [Sm|Ns].
      + apply weak_weakened. apply (filt_weak M b delta RC Kb Pp f true r b' rho Fv Fin (bounds_lit delta f o x y Eo El Sm) Si E Hr).
      + apply (lit_weakened M delta _ f o x y rho true Eo El). right. exact Ns.
  Qed.

  Lemma xdelta_assert g c b saved p ps f c' g' b' : cinv g c b saved p ps -> xdelta g (lev c b) p -> op_ok (g_news g) p (OAssert f) -> delta_op fold p (OAssert f) ->
    cx_assert fold K f c = Some c' -> cinv g' c' b' saved (add_assert f p) ps -> gext g g' -> g_news g' = g_news g -> xdelta g' (lev c' b') (add_assert f p).
  Proof.
    intros C X [Wf Ie] (Ni & Un & Nf) E C' Ge Nw. pose proof C as C0. destruct C0 as [I1 I2 I3 I4 I5 I6 I7 I8]. pose proof (li_box _ _ _ _ _ _ _ _ I6) as Kb. cbn [lev v_box] in Kb.
    pose proof (csim_box _ _ _ (ci_sim _ _ _ _ _ _ _ _ _ _ _ _ C')) as Eb'. pose proof (wfF_fin _ _ _ f Wf) as Fin.
    assert (Od : forall v, In v (fvF f) -> declared p v) by (intros v Hv; destruct (proj2 (wf_fv _ _ _) f Wf v Hv) as [Y|Y]; apply Y).
    assert (Fv : forall v, In v (fvF f) -> In v (bvars b)) by (intros v Hv; apply (li_dcl _ _ _ _ _ _ _ _ I6 v (Od v Hv))).
    pose proof (wf_qf _ _ _ f (fun v C => proj1 C) Wf) as Qf.
    pose proof (xdelta_mono g g' _ _ Ge I6 X) as X'.
    assert (New : forall lv, xdelta g' lv p -> status g' lv f -> xdelta g' lv (add_assert f p)).
    { intros lv [Y1 Y2 Y3] S. split; [exact Y1|exact Y2|]. cbn [add_assert p_asserts]. intros h Hh. apply in_app_or in Hh. destruct Hh as [Hh|[<-|[]]]; [exact (Y3 h Hh)|]. split; [exact Qf|]. split; [exact Od|exact S]. }
    unfold cx_assert in E. rewrite (csim_box _ _ _ I1) in E.
    assert (Same : forall c1, Some c1 = Some c' -> c1 = c -> status g' (lev c b) f -> xdelta g' (lev c' b') (add_assert f p)).
    { intros c1 E1 -> S. assert (c = c') by congruence. subst c'. rewrite (csim_box _ _ _ I1) in Eb'. assert (b = b') by congruence. subst b'. exact (New _ X' S). }
    destruct (is_true f) eqn:Tf.
    { apply (Same _ E eq_refl). left. intros E0 HE. destruct f; try discriminate. apply (h_true _ HE). }
    cbn [bind] in E. destruct (b_empty b) eqn:Eb.
    { apply (Same _ E eq_refl). right. left. intros C1. cbn [lev v_box] in C1. congruence. }
    (* only the box changes *)
    assert (Box : forall b1, cx_set_box b1 c = Some c' -> (b_empty b1 = true -> bvars b1 <> []) -> (forall v, In v (bvars b) -> forall x, imem x (b_getv b1 v) -> imem x (b_getv b v)) -> absorbed b1 f -> xdelta g' (lev c' b') (add_assert f p)).
    { intros b1 E1 N1 S1 Ab. destruct (csim_set b1 c b saved I1) as (c1 & F1 & F2 & F3 & F4 & F5 & _). rewrite F1 in E1. assert (c1 = c') by congruence. subst c1.
      rewrite (csim_box _ _ _ F2) in Eb'. assert (b1 = b') by congruence. subst b1. rewrite (lev_set c c' b b' F3 F4). apply New.
      - apply (xdelta_box g' (lev c b) p p b' X'); auto; try (intros; exact Eb). intros h v Hh Hv. destruct (xd_fs _ _ _ X h Hh) as (_ & A2 & _). apply S1. apply (li_dcl _ _ _ _ _ _ _ _ I6 v). auto.
      - right. left. exact Ab. }
    destruct (is_false f) eqn:Ff.
    { assert (Eff : f = FFalse) by (destruct f; try discriminate; reflexivity). apply (Box _ E).
      - intros _ C1. specialize (Nf Eff). destruct (p_doms p) as [|[w d] l] eqn:Ed; [contradiction|].
        assert (Hw : In w (bvars b)) by (apply (li_dcl _ _ _ _ _ _ _ _ I6 w); unfold declared; rewrite Ed; left; reflexivity). change (bvars b = []) in C1. rewrite C1 in Hw. destruct Hw.
      - intros v _ x Hx. exfalso. unfold b_getv, b_get, b_set_empty in Hx. cbn [bvals] in Hx. rewrite (map_nth (fun _ => IEmpty) (bvals b) IEmpty _) in Hx. exact Hx.
      - intros Ee. exfalso. unfold b_empty, b_set_empty in Ee. cbn [bvals] in Ee. destruct (bvals b); discriminate Ee. }
    destruct (filter_assertion f b) as [[r b1]|] eqn:Ef; cbn [bind fst snd] in E; [|discriminate].
    destruct (filter_sub M f b r b1 RC Kb Fv Fin Ef) as [Kb1 Sb1].
    assert (Nn : b_empty b1 = true -> bvars b1 <> []).
    { intros E1 C1. destruct (is_simple_relational f) eqn:Si.
      - destruct (filt_lit f Si) as (_ & _ & _ & _ & _ & Nv). destruct (fvF f) as [|v l] eqn:Efv; [contradiction|]. pose proof (Fv v (or_introl eq_refl)) as Hv. rewrite <- (proj1 Sb1), C1 in Hv. destruct Hv.
      - rewrite (filt_same f true b r b1 Ef Si) in E1. congruence. }
    assert (Sv1 : forall v, In v (bvars b) -> forall x, imem x (b_getv b1 v) -> imem x (b_getv b v)) by (intros v _ x; apply sub_getv; exact Sb1).
    destruct r; try (apply (Box _ E Nn Sv1); apply (absorbed_filter p _ f b _ b1 Kb Fv Fin Wf Ni Ef); apply (filt_simple f true b _ b1 Ef); discriminate).
    destruct (ite_process fold K f (cx_next c)) as [gg s] eqn:Ep.
    destruct (process_E _ (holds_hom M (fun _ => 0%R)) fold K f (cx_next c) gg s Qf Ni Un Ep) as (V1 & V2 & _).
    assert (V3 : forall E, hom E -> E gg -> E f) by (intros E0 HE; exact (proj2 (proj2 (process_E E0 HE fold K f (cx_next c) gg s Qf Ni Un Ep)))).
    rewrite V1 in E. cbn [fold_left] in E.
    destruct (csim_set b1 c b saved I1) as (c1 & E1 & H1 & X1 & X2 & X3 & _). rewrite E1 in E. cbn [bind] in E.
    destruct (sat_add_formula fold gg (it_next s) (cx_sat c1)) as [[st' nx']|] eqn:Ea; cbn [bind fst snd] in E; [|discriminate]. rewrite X2 in Ea.
    assert (Ec : cx_with_sat st' nx' (cx_push_stack gg c1) = c') by congruence. clear E.
    assert (Cb : cx_box c' = Some b1) by (rewrite <- Ec; exact (csim_box _ _ _ H1)). rewrite Cb in Eb'. assert (b1 = b') by congruence. subst b'.
    assert (L1 : linv g (set_box b1 (lev c b)) (add_assert f p)).
    { apply linv_assert_box; auto.
      - exact (filter_phantom M f b NotFiltered b1 RC Kb Fv Fin Ef (li_ph _ _ _ _ _ _ _ _ I6)).
      - intros rho Y1 Y2 Y3. exact (filter_keeps M f b b1 NotFiltered RC Kb Fv Fin Ef rho Y1 Y3 (reg_gap M D f rho Y2 true)). }
    rewrite <- I3 in Ep.
    destruct (pr_all M D fold K n False g _ p f gg s I2 L1 Wf Ie Ep) as (N1 & Bg & Hi & Ung & _).
    pose proof (wf_qf _ _ _ gg (fun v C => C) (gg_wf M D fold K n False g _ p f gg s _ I2 L1 Wf Ie Ep eq_refl)) as Qg.
    assert (Sok : sok fold (cx_sat c) (it_next s)).
    { split; [exact (linv_sat_inv M D fold n False g (lev c b) p (cx_sat c) I6 eq_refl (eq_sym I5))|]. rewrite V2, <- I3, <- I4. exact (go_pa fold n g I2). }
    destruct (add_formula_E fold gg (it_next s) (cx_sat c) st' nx' Sok Qg Ung Bg Ea) as (Xe & Xc & XE).
    assert (Epa : ss_pa st' = g_pa g') by (rewrite (ci_pa _ _ _ _ _ _ _ _ _ _ _ _ C'), <- Ec; reflexivity).
    assert (Enx : nx' = g_nx g') by (rewrite (ci_nx _ _ _ _ _ _ _ _ _ _ _ _ C'), <- Ec; reflexivity).
    assert (Elv : lev c' b1 = {| v_box := b1; v_stack := sv_vec (cx_stack c) ++ [gg]; v_sat := slv st' |}).
    { rewrite <- Ec. unfold lev. cbn [cx_with_sat cx_push_stack cx_stack cx_sat sv_push_back sv_vec]. rewrite X1. reflexivity. }
    assert (Imp : forall h, implied (g_pa g') (v_sat (lev c b)) h -> implied (g_pa g') (slv st') h).
    { intros h Hh E0 HE Df Cl. apply (Hh E0 HE Df). intros L0 HL. apply (cl_true_back _ (cx_sat c) st' L0 (proj1 Sok) Xe HL). apply Cl. exact (Xc L0 HL). }
    rewrite Elv. apply New.
    - split; cbn [v_box v_sat]; [exact Nn| |].
      + intros v Hv. destruct (conv fold g gg s (cx_sat c) st' nx' Ea (eq_sym I4)) as (cs & t & gs & q & Et & Eq & Ecl & En).
        match type of Ecl with sat_add_clauses _ ?s0 = _ => assert (I0 : sat_inv s0) by (destruct Sok as [[B1 B2 B3] _]; split; assumption) end.
        destruct (add_clauses_spec M gs _ st' I0 Ecl) as (_ & _ & _ & Ts & _).
        destruct (ts_convert_fresh M fold gg (it_next s) (Some cs) t Ung Bg Et) as (_ & N2 & Tk).
        cbn [slv l_tse] in Hv. rewrite Ts in Hv. cbn [with_pa with_tse ss_tse] in Hv. apply tse_fold_inv in Hv. destruct Hv as [Hv|Hv].
        * destruct (Tk v Hv) as (_ & T2). pose proof (go_n fold n g I2).
          assert (K0 : pa_ok fold {| pa_next := ts_next t; pa_map := g_pa g |}) by (apply (pa_ok_later fold (g_nx g)); [exact (go_pa fold n g I2)|lia]).
          destruct (pa_convert_all_spec M fold cs _ gs q (ts_convert_U fold gg _ cs t Et Ung) K0 Eq) as (_ & [Lq _] & _). cbn [pa_next] in Lq.
          split; [lia|]. rewrite Nw. intros C1. apply (go_news fold n g I2) in C1. lia.
        * apply (tse_mono g g' v Ge). exact (xd_tse _ _ _ X v Hv).
      + intros h Hh. destruct (xd_fs _ _ _ X' h Hh) as (A1 & A2 & A3). split; [exact A1|]. split; [exact A2|].
        revert A3. apply status_keep; cbn [lev v_stack v_box v_sat]; auto.
        * intros y Hy. apply in_or_app. left. exact Hy.
        * intros v Hv. apply Sv1. apply (li_dcl _ _ _ _ _ _ _ _ I6 v). auto.
    - right. right. exists gg. split; [cbn [v_stack]; apply in_or_app; right; left; reflexivity|]. split; [exact V3|].
      intros E0 HE Df Cl. apply (V3 E0 HE). apply (XE E0 HE); [rewrite Epa; exact Df|exact Cl].
  Qed.

  (** Checking only learns clauses. *)
  Lemma xdelta_check g c b saved p ps k r c' g' : cinv g c b saved p ps -> xdelta g (lev c b) p -> cx_check fold pico T mid precision k c = Some (r, c') ->
    gext g g' -> xdelta g' (lev c' b) p.
  Proof.
    intros C X E Ge. pose proof C as C0. destruct C0 as [I1 I2 I3 I4 I5 I6 I7 I8]. pose proof (xdelta_mono g g' _ _ Ge I6 X) as X'.
    unfold cx_check in E. destruct (check_core fold pico T k c) as [[ob c1]|] eqn:Ec; cbn [bind] in E; [|discriminate].
    assert (Y : xdelta g' (lev c1 b) p).
    { unfold check_core in Ec. rewrite (csim_box _ _ _ I1) in Ec. cbn [bind] in Ec.
      destruct (b_empty b); [assert (c = c1) by congruence; subst; exact X'|].
      destruct (existsb is_false (sv_vec (cx_stack c))); [assert (c = c1) by congruence; subst; exact X'|].
      destruct (sv_vec (cx_stack c)) as [|h st] eqn:Est; [assert (c = c1) by congruence; subst; exact X'|].
      destruct (match h :: st with [f0] => is_true f0 | _ => false end); [assert (c = c1) by congruence; subst; exact X'|].
      destruct (core_loop fold pico T k b (cx_sat c) (cx_next c) (cx_calls c)) as [[[[ob' s'] nx'] t']|] eqn:El; cbn [bind] in Ec; [|discriminate].
      assert (Sc : score fold False okA okV b (cx_sat c) (cx_next c)).
      { split.
        - split; [exact (linv_sat_inv M D fold n False g (lev c b) p (cx_sat c) I6 eq_refl (eq_sym I5))|]. rewrite <- I3, <- I4. exact (go_pa fold n g I2).
        - intros v Hv. destruct (li_bv _ _ _ _ _ _ _ _ I6 v Hv) as [H|[_ H]]; [exact (I8 p v (or_introl eq_refl) H)|]. exact (OKV_CONT v H).
        - auto.
        - intros v kk Hk. rewrite <- I4. destruct (li_var _ _ _ _ _ _ _ _ I6 v kk Hk) as [H|[H1 H2]]; [left; exact H|right; split; [exact H1|]].
          destruct H2 as [H2|H2]; [left; unfold is_tse; cbn [lev v_sat slv l_tse] in H2; destruct (al_find var_eqb v (sm_map (ss_tse (cx_sat c)))); [reflexivity|congruence]|right; exact H2]. }
      destruct (core_sem M D fold pico T False okA okV P_ok T_ok k b b (cx_sat c) (cx_next c) (cx_calls c) ob' s' nx' t' Sc (bu_refl b (li_box _ _ _ _ _ _ _ _ I6) (li_rng _ _ _ _ _ _ _ _ I6)) El)
        as (_ & _ & _ & _ & A5 & A6 & (ln & A7 & _) & _).
      injection Ec as _ <-.
      destruct X' as [Y1 Y2 Y3]. split; cbn [lev v_box v_sat slv l_tse cx_sat] in *; [exact Y1|rewrite A6; exact Y2|].
      intros f Hf. destruct (Y3 f Hf) as (B1 & B2 & B3). split; [exact B1|]. split; [exact B2|]. revert B3. apply status_keep; cbn [lev v_stack v_box v_sat cx_stack cx_sat]; auto using incl_refl.
      intros Hi E0 HE Df Cl. apply (Hi E0 HE Df). intros L0 HL. cbn [slv l_cls l_sym] in *.
      destruct (Cl L0 ltac:(rewrite A7; apply in_or_app; left; exact HL)) as (l & Hl & v & Hv & Ht). exists l. split; [exact Hl|]. exists v. split; [rewrite <- A5; exact Hv|exact Ht]. }
    destruct ob as [B|]; [destruct (tighten mid precision B) as [B1|]; cbn [bind] in E; [|discriminate]|]; injection E as _ <-; exact Y.
  Qed.

  Lemma xdelta_step g c b saved p ps o c' a g' b' : cinv g c b saved p ps -> xdelta g (lev c b) p -> op_ok (g_news g) p o -> delta_op fold p o -> step o c = Some (c', a) ->
    cinv g' c' b' saved (fst (p_step o (p, ps))) ps -> gext g g' -> g_news g' = news_step o (g_news g) -> o <> OPush -> o <> OPop -> xdelta g' (lev c' b') (fst (p_step o (p, ps))).
  Proof.
    intros C X Ok Dl E C' Ge Nw N1 N2. pose proof C as C0. destruct C0 as [I1 I2 I3 I4 I5 I6 I7 I8]. pose proof (ci_sim _ _ _ _ _ _ _ _ _ _ _ _ C') as S'. pose proof (csim_box _ _ _ S') as Eb'.
    pose proof (li_box _ _ _ _ _ _ _ _ I6) as Kb. cbn [lev v_box] in Kb.
    assert (Bx : forall b1, csim c' b1 saved -> b1 = b') by (intros b1 H; pose proof (csim_box _ _ _ H); congruence).
    pose proof (ci_lev _ _ _ _ _ _ _ _ _ _ _ _ C') as L'.
    destruct o; cbn [cx_step op_ok delta_op p_step fst snd news_step op_ok_q] in *; try contradiction.
    - destruct (Nat.eqb _ _); [|discriminate]. injection E as <- _. rewrite <- (Bx b (next_sim _ _ _ _ I1)). exact (xdelta_mono g g' _ _ Ge I6 X).
    - destruct (cx_declare v model c) as [c1|] eqn:E1; cbn [bind] in E; [|discriminate]. injection E as <- _.
      destruct (declare_sim _ _ _ _ _ _ I1 E1) as (S1 & S2 & S3 & S4). rewrite <- (Bx _ S1). rewrite (lev_set c c1 b _ S2 S3).
      apply (xdelta_mono g g' _ _ Ge (linv_declare M D fold n False g (lev c b) p v I2 Ok I6)). exact (xdelta_declare g (lev c b) p v I6 X).
    - destruct (cx_declare v model c) as [c1|] eqn:E1; cbn [bind] in E; [|discriminate]. destruct (cx_set_interval v l u c1) as [c2|] eqn:E2; cbn [bind] in E; [|discriminate].
      injection E as <- _. destruct Ok as (O1 & O2 & O3).
      destruct (declare_sim _ _ _ _ _ _ I1 E1) as (S1 & S2 & S3 & S4). destruct (set_interval_sim _ _ _ _ _ _ _ S1 E2) as (U1 & U2 & U3 & U4). rewrite <- (Bx _ U1).
      pose proof (linv_declare M D fold n False g (lev c b) p v I2 O1 I6) as L1.
      assert (Dv : declared (declare v p) v).
      { unfold declare. destruct (mem_var v (map fst (p_doms p))) eqn:Em; [apply mem_declared; exact Em|]. unfold declared. cbn [p_doms]. rewrite map_app. apply in_or_app. right. left. reflexivity. }
      pose proof (xdelta_declare g (lev c b) p v I6 X) as X1.
      rewrite (lev_set c1 c2 (b_add_new b v) _ U2 U3), (lev_set c c1 b _ S2 S3).
      apply (xdelta_mono g g' _ _ Ge (linv_declare_set M D fold n False g (lev c b) p v l u I2 O1 O2 O3 I6)).
      apply (xdelta_set g (set_box (b_add_new b v) (lev c b)) (declare v p) v (mk_ival l u) (between l u) L1 Dv (mk_ival_ok l u)); [|exact X1].
      cbn [set_box v_box]. unfold declare at 1 2. intros Na.
      assert (Nd : mem_var v (map fst (p_doms p)) = false).
      { destruct (mem_var v (map fst (p_doms p))) eqn:Em; [|reflexivity]. destruct (Na (Dl (proj1 (mem_declared v p) Em))). }
      rewrite Nd in Na |- *. cbn [p_asserts] in *. assert (Nv : ~ In v (bvars b)).
      { intros C1. destruct (li_bv _ _ _ _ _ _ _ _ I6 v C1) as [Y|[Y _]]; [apply mem_declared in Y; congruence|]. exact (known_noint fold n g v I2 O1 Y). }
      split.
      + intros f Hf C1. destruct (xd_fs _ _ _ X f Hf) as (_ & A2 & _). apply A2 in C1. apply mem_declared in C1. congruence.
      + intros Ee. destruct (b_empty b) eqn:Eb.
        * pose proof (xd_emp _ _ _ X Eb) as Ne. destruct (bvars b) as [|w bs] eqn:Ev; [contradiction|]. destruct (add_new_cons b v w bs Ev) as [l' E']. exists w, l'. split; [exact E'|]. intros ->. apply Nv. left. reflexivity.
        * destruct (bvars b) as [|w bs] eqn:Ev; [|destruct (add_new_cons b v w bs Ev) as [l' E']; exists w, l'; split; [exact E'|]; intros ->; apply Nv; left; reflexivity].
          exfalso. unfold b_add_new in Ee. destruct (b_has b v) eqn:Eh; [congruence|]. rewrite (first_empty _ v []) in Ee; [|cbn [b_add bvars]; rewrite Ev; reflexivity].
          rewrite new_getv in Ee; [|exact Kb|rewrite Ev; intros []]. rewrite Ev in Ee. cbn [length Nat.eqb] in Ee.
          destruct (vty v); cbn [default_dom] in Ee; try discriminate Ee. change (i_empty (b_get b 0) = false) in Eb. congruence.
    - destruct (cx_set_interval v l u c) as [c2|] eqn:E2; cbn [bind] in E; [|discriminate]. injection E as <- _. destruct Ok as (O1 & O2 & O3).
      destruct (set_interval_sim _ _ _ _ _ _ _ I1 E2) as (U1 & U2 & U3 & U4). rewrite <- (Bx _ U1).
      rewrite (lev_set c c2 b _ U2 U3). apply (xdelta_mono g g' _ _ Ge (linv_redomain M D fold n False g (lev c b) p v l u I2 O1 O2 O3 I6)).
      apply (xdelta_set g (lev c b) p v (mk_ival l u) (between l u) I6 O1 (mk_ival_ok l u)); [|exact X]. intros Na. contradiction.
    - destruct (cx_assert fold K f c) as [c1|] eqn:E1; cbn [bind] in E; [|discriminate]. injection E as <- _.
      exact (xdelta_assert g c b saved p ps f c1 g' b' C X Ok Dl E1 C' Ge Nw).
    - destruct (cx_check fold pico T mid precision fuel c) as [[r c1]|] eqn:E1; cbn [bind fst snd] in E; [|discriminate]. injection E as <- _.
      rewrite <- (Bx b (proj1 (check_sim _ _ _ _ _ _ _ _ _ _ _ I1 E1))). exact (xdelta_check g c b saved p ps fuel r c1 g' C X E1 Ge).
  Qed.

  (** ** The answer *)
  Lemma xdelta_ans g c b saved p ps (ms : list var) k r c' : cinv g c b saved p ps -> xdelta g (lev c b) p -> marked c ms -> (forall v a, In (v, a) (ss_pa (cx_sat c)) -> okA a) ->
    cx_check fold pico T mid precision k c = Some (r, c') -> delta_ok M D mid precision p r.
  Proof.
    intros C X _ HA E m ->. pose proof C as C0. destruct C0 as [I1 I2 I3 I4 I5 I6 I7 I8]. pose proof (li_box _ _ _ _ _ _ _ _ I6) as Kb0. cbn [lev v_box] in Kb0.
    destruct (model_dims_full M D fold pico T mid precision n False okA okV OKV_CONT P_ok T_ok T_bx Hm Fp Pp g c b saved p ps k m c' C HA E) as (B & B1 & Hb & _ & NB & Kb & Vb & Em & K1 & V1 & Db & Td).
    assert (Nb : b_empty b = false) by exact (proj1 (check_answer M D fold pico T mid precision n False okA okV OKV_CONT P_ok T_ok g c b saved p ps k m c' C HA E)).
    destruct (extract_spec (cx_mvars c) B1 K1) as (X1 & X2 & X3 & X4). rewrite <- Em in X1, X2, X3, X4.
    assert (Dm : forall v, In v (bvars m) -> In v (bvars b) /\ (i_empty (b_getv B v) = true -> b_getv m v = IEmpty) /\ (i_empty (b_getv B v) = false -> tight_ok precision (vty v) (b_getv B v) (b_getv m v))).
    { intros v Hv. destruct (X3 v Hv) as [Hv1 Eg]. rewrite Eg. rewrite V1 in Hv1. split; [exact Hv1|]. exact (Td v Hv1). }
    exists B. split; [exact Kb|]. split; [exact NB|]. split; [intros v Hv; rewrite Vb; apply (li_dcl _ _ _ _ _ _ _ _ I6 v Hv)|]. split.
    { intros v Hv. destruct (Dm v Hv) as (Y1 & Y2 & Y3). split; [rewrite Vb; exact Y1|]. split.
      - intros [x Hx]. apply Y3. destruct (b_getv B v); [destruct Hx|reflexivity].
      - intros Nx x Hx. destruct (i_empty (b_getv B v)) eqn:Ee; [rewrite (Y2 eq_refl) in Hx; exact Hx|]. pose proof (b_getv_ok B v Kb) as Ki. destruct (b_getv B v) as [|l u] eqn:Ev; [discriminate|].
        destruct (i_ok_mem l u Ki) as [y Hy]. exact (Nx y Hy). }
    intros f Hf rho Hr. assert (Hr' : forall v, In v (fvF f) -> imem (rho v) (b_getv B v)).
    { destruct Hr as [Hr|Hr]; [exact Hr|]. intros v Hv. destruct (Hr v Hv) as (R1 & R2 & R3). destruct (Dm v R1) as (_ & Y2 & Y3).
      destruct (i_empty (b_getv B v)) eqn:Ee; [rewrite (Y2 eq_refl) in R2; destruct R2|]. destruct (Y3 eq_refl) as [_ Y]. pose proof (b_getv_ok B v Kb) as Ki. unfold reported_inside in R3.
      destruct (vty v) eqn:Ty.
      - apply Y. exact R2.
      - destruct Y as (_ & Y4 & Y5). destruct R3 as [R3|[R3|[R3 R4]]]; [discriminate|rewrite <- (Y4 R3); exact R2|]. apply (Y5 _ Ki R3); auto.
      - destruct Y as (_ & Y4 & Y5). destruct R3 as [R3|[R3|[R3 R4]]]; [discriminate|rewrite <- (Y4 R3); exact R2|]. apply (Y5 _ Ki R3); auto. apply R4. discriminate.
      - destruct Y as (_ & Y4 & Y5). destruct R3 as [R3|[R3|[R3 R4]]]; [discriminate|rewrite <- (Y4 R3); exact R2|]. apply (Y5 _ Ki R3); auto. apply R4. discriminate. }
    clear Hr. set (exc := unguarded M D mid delta B).
    destruct (xd_fs _ _ _ X f Hf) as (Qf & Dcl & St).
    assert (SI : sat_inv (cx_sat c)) by exact (linv_sat_inv M D fold n False g (lev c b) p (cx_sat c) I6 eq_refl (eq_sym I5)).
    assert (PK : pa_ok fold {| pa_next := cx_next c; pa_map := ss_pa (cx_sat c) |}) by (rewrite <- I3, <- I4; exact (go_pa fold n g I2)).
    assert (Kn : forall v, In v (fvF f) -> known n (g_news g) v /\ In v (bvars b)) by (intros v Hv; exact (li_dcl _ _ _ _ _ _ _ _ I6 v (Dcl v Hv))).
    assert (Nk : forall v f', In v (fvF f) -> In (v, f') (ss_pa (cx_sat c)) -> False) by (intros v f' Hv; rewrite <- I4; exact (known_nokey fold n g v f' I2 (proj1 (Kn v Hv)))).
    assert (Go : exists a, (forall f', assigned (cx_sat c) a f' -> (forall v, In v (fvF f') -> In v (fvF f)) -> weakened M delta exc true f' rho) /\
      (forall v x, In v (fvF f) -> avar (cx_sat c) a v x -> (forall f', ~ In (v, f') (ss_pa (cx_sat c))) -> rho v = bval x) /\
      ((exists gg, In gg (v_stack (lev c b)) /\ (forall E, hom E -> E gg -> E f) /\ implied (g_pa g) (v_sat (lev c b)) f) -> val M delta exc (cx_sat c) a rho f)).
    { destruct Hb as [[Hs EB]|(a & A1 & b1 & A2 & A3 & A4)].
      - exists (fun _ => None). split; [intros f' (v & kk & x & at_ & _ & _ & F & _); discriminate|]. split; [intros v x _ (kk & _ & F); discriminate|].
        intros (gg & G1 & G2 & _). apply (G2 _ (val_hom M delta exc (cx_sat c) _ rho)). cbn [lev v_stack] in G1. destruct Hs as [Hs|Hs]; rewrite Hs in G1; [destruct G1|]. destruct G1 as [<-|[]]. exact I.
      - exists a.
        assert (OkV1 : forall v, In v (bvars b1) -> okV v).
        { intros v Hv. rewrite (bd_vars _ _ A2) in Hv. destruct (li_bv _ _ _ _ _ _ _ _ I6 v Hv) as [H|[_ H]]; [exact (I8 p v (or_introl eq_refl) H)|exact (OKV_CONT v H)]. }
        assert (Sb : box_sub B b1).
        { destruct A4 as [[_ ->]|(t & fs & E1 & _ & Hl)]; [split; auto|]. destruct (T_bx t b1 fs B (bd_ok _ _ A2) (bd_rng _ _ A2)) as (_ & Z & _); auto. }
        split; [|split].
        + intros f' Ha Hv. destruct A4 as [[N _]|(t & fs & E1 & Hi & Hl)]; [destruct (N f' Ha)|].
          apply (T_wk t b1 fs B (bd_ok _ _ A2) (bd_rng _ _ A2) Hl E1 f' (proj2 (Hi f') Ha)). intros v Hw. apply Hr', Hv, Hw.
        + intros v x Hv (i & F1 & F2) Np. destruct (Kn v Hv) as [Kv Bv].
          assert (Z1 : in_pa (cx_sat c) v = false).
          { destruct (in_pa (cx_sat c) v) eqn:Ei; [|reflexivity]. apply in_pa_iff in Ei. destruct Ei as [f' Ei]. apply theory_literal_in in Ei. destruct (Np f' Ei). }
          assert (Z2 : is_tse (cx_sat c) v = false).
          { destruct (is_tse (cx_sat c) v) eqn:Ei; [|reflexivity]. exfalso. unfold is_tse in Ei. destruct (xd_tse _ _ _ X v) as [W1 W2].
            { cbn [lev v_sat slv l_tse]. destruct (al_find var_eqb v (sm_map (ss_tse (cx_sat c)))) eqn:Ef; [congruence|discriminate Ei]. }
            destruct Kv as [Kv|Kv]; [lia|contradiction]. }
          destruct (A3 v i x F1 F2 Z1 Z2) as (_ & _ & Ep). pose proof (sub_getv B b1 v (rho v) Sb (Hr' v Hv)) as Hp. rewrite Ep in Hp. destruct x; cbn [bval].
          * apply (point_mem 1) in Hp; [exact Hp|cbn; lia].
          * unfold i_point in Hp. apply mk_ival_mem in Hp; [|reflexivity|reflexivity]. destruct Hp as [H1 H2]. cbn in H1, H2. lra.
        + intros (gg & _ & _ & Im). apply Im; [apply val_hom| |].
          * rewrite I4. exact (val_defs M delta exc fold (cx_sat c) (cx_next c) a rho PK).
          * intros L0 HL. exact (val_clause M delta exc fold (cx_sat c) (cx_next c) a rho SI PK L0 HL (A1 L0 HL)). }
    destruct Go as (a & HT & HB & Hst).
    assert (Vw : val M delta exc (cx_sat c) a rho f -> weakened M delta exc true f rho).
    { apply (proj1 (val_weak M delta exc fold Pp (cx_sat c) (cx_next c) a rho PK (fun v => In v (fvF f)) HT HB f Qf (fun v H => H) Nk)). }
    destruct St as [St|[St|St]].
    - apply Vw. apply St. apply val_hom.
    - destruct (St Nb) as [St1 St2]. apply (weakened_mono M delta (exc0 delta) exc f); [intros x y r0 H; right; right; exact H|]. apply St2. intros v Hv. cbn [lev v_box].
      destruct (Db v (proj2 (Kn v Hv))) as [Y|[Y _]]; [apply Y, Hr', Hv|destruct (St1 v Hv Y)].
    - apply Vw. exact (Hst St).
  Qed.
  Theorem delta_run ops c a : run ops (cx_init n) = Some (c, a) -> admissible M D fold K n ops [] (p_empty, []) -> Forall (op_okV okV) ops -> delta_ops fold ops (p_empty, []) ->
    Forall2 (fun q r => delta_ok M D mid precision (fst q) r) (checks ops (p_empty, []) []) a.
  Proof.
    intros E Ad Vk Dl.
    apply (run_extra M D fold K pico T mid precision n False okA okV OKV_CONT RC P_ok T_ok xdelta (delta_op fold) (fun p _ r => delta_ok M D mid precision p r)) with (c := cx_init n) (c' := c) (b := box0) (saved := []) (ps := []) (g := {| g_news := []; g_int := []; g_pa := []; g_nx := n; g_mx := 0 |}); auto.
    - exact xdelta_mono.
    - intros. exact (xdelta_step _ _ _ _ _ _ _ _ _ _ _ H H0 H1 H2 H3 H4 H5 H6 H7 H8).
    - intros. exact (xdelta_ans _ _ _ _ _ _ _ _ _ _ H H0 H1 H2 H3).
    - exact (init_inv M D fold n False okV).
    - split; [discriminate| |intros f []]. intros v H. exfalso. apply H. reflexivity.
    - split; [constructor|]. intros v. cbn. tauto.
    - clear -Dl. revert Dl. generalize (p_empty, @nil problem). induction ops as [|o ops IH]; intros st; cbn [xadm delta_ops]; [auto|]. intros [H1 H2]. auto.
  Qed.
End Run.
Section Top.
  Variables (M : interp) (D : pdom) (fold : expr -> expr -> option dbl) (mid : dbl -> dbl -> dbl) (precision : dbl) (wl : bool).
  Hypothesis RC : rc_ok M.
  Hypothesis Hm : mid_ok mid.
  Let okV (v : var) : Prop := wl = true -> is_int_type (vty v) = false.
  Variables (K : eops) (pico : pico_t) (n : nat) (T : nat -> box -> list formula -> option tres).
  Hypothesis HP : pico_ok pico.
  Hypothesis HT : T_sound M D fold T False (fun _ => True) okV.
  Hypothesis HB : T_box fold False (fun _ => True) okV T.
  Hypothesis HW : T_weak M D fold mid precision T.
  Hypothesis Fp : is_finite precision = true.
  Hypothesis Pp : (0 < B2R precision)%R.
  Theorem delta_top ops c a : cx_run fold K pico T mid precision ops (cx_init n) = Some (c, a) -> admissible M D fold K n ops [] (p_empty, []) -> ints_ok wl ops -> delta_ops fold ops (p_empty, []) ->
    Forall2 (fun q r => delta_ok M D mid precision (fst q) r) (checks ops (p_empty, []) []) a.
  Proof.
    intros E Ad Io Dl. exact (delta_run M D fold K pico T mid precision n okV (cont_okV wl) RC HP HT HB HW Hm Fp Pp ops c a E Ad (ints_okV wl ops Io) Dl).
  Qed.
End Top.
