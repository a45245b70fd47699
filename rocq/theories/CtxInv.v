(** * The invariant of a context along a history, and the unsat answers (behind C01) *)
From Coq Require Import ZArith Reals Lra Lia List Bool Arith Classical.
From Flocq Require Import IEEE754.BinarySingleNaN.
From Verif Require Import Dbl DblProofs Syntax Sem SemProofs FormulaCons FormulaConsProofs SpecForm Nnf NnfProofs PredAbs PredAbsProofs Tseitin TseitinProofs ConsUnfolded
  Scoped SpecScoped ScopedProofs Interval IntervalProofs MathConv MathConvProofs IEval Contr Icp IcpTop Filter FilterProofs Theory TheoryTop IteElim SpecIte IteElimProofs
  Regular RegularProofs Wff WffProofs Sat Context CtxStruct SatSem CdclProofs SpecCtx CtxBox CtxSem CtxRun.
Import ListNotations.

Section Hist.
  Variables (M : interp) (D : pdom) (fold : expr -> expr -> option dbl) (K : eops) (pico : pico_t) (T : nat -> box -> list formula -> option tres).
  Variables (mid : dbl -> dbl -> dbl) (precision : dbl) (n : nat) (qa : Prop) (okA : formula -> Prop) (okV : var -> Prop).
  Hypothesis OKV_CONT : forall v, vty v = CONTINUOUS -> okV v.
  Hypothesis RC : rc_ok M.
  Hypothesis P_ok : pico_ok pico.
  Hypothesis T_ok : T_sound M D fold T qa okA okV.
  Notation step := (cx_step fold K pico T mid precision). Notation run := (cx_run fold K pico T mid precision).
  Notation linv := (linv M D fold n qa). Notation gok := (gok fold n).

  Record cinv (g : glob) (c : ctx) (b : box) (saved : list level) (p : problem) (ps : list problem) : Prop := {
    ci_sim : csim c b saved;
    ci_g : gok g;
    ci_nx : g_nx g = cx_next c;
    ci_pa : g_pa g = ss_pa (cx_sat c);
    ci_mx : g_mx g = ss_max (cx_sat c);
    ci_lev : linv g (lev c b) p;
    ci_sav : Forall2 (linv g) saved ps;
    ci_dcl : forall q v, In q (p :: ps) -> declared q v -> okV v }.

  Lemma saved_mono g g' saved ps : gext g g' -> Forall2 (linv g) saved ps -> Forall2 (linv g') saved ps.
  Proof. intros E H. induction H; constructor; auto. exact (linv_mono _ _ _ _ _ _ _ _ _ E H). Qed.
  Lemma saved_len g saved ps : Forall2 (linv g) saved ps -> length saved = length ps.
  Proof. intros H. induction H; cbn [length]; auto. Qed.

  Lemma linv_check g lv lv' p learned : linv g lv p -> v_stack lv <> [] -> v_box lv' = v_box lv -> v_stack lv' = v_stack lv ->
    (forall v, l_sat (v_sat lv') v = l_sat (v_sat lv) v) -> (forall k, l_sym (v_sat lv') k = l_sym (v_sat lv) k) -> (forall v, l_tse (v_sat lv') v = l_tse (v_sat lv) v) ->
    l_cls (v_sat lv') = l_cls (v_sat lv) ++ learned -> (forall L l, In L learned -> In l L -> exists v, l_sym (v_sat lv) (fst l) = Some v) ->
    (forall rho, well_typed rho -> in_box rho (v_box lv) -> (forall v k a, l_sat (v_sat lv) v = Some k -> In (v, a) (g_pa g) -> regular M D a rho) ->
       forall L, In L learned -> ctrue (tv M (g_pa g) rho) (l_sym (v_sat lv)) L) ->
    linv g lv' p.
  Proof.
    intros [B1 B2 B3 B4 B5 B6 S1 S2 S3 S4 S5 P1 Sm] Ns Eb Es E1 E2 E3 Ec Lk Lt. split; try (rewrite Eb; assumption); auto.
    - intros v k. rewrite E1, E2. apply S1.
    - intros k v. rewrite E1, E2. apply S2.
    - intros L l. rewrite Ec. intros HL Hl. rewrite E2. apply in_app_or in HL. destruct HL as [HL|HL]; [exact (S3 L l HL Hl)|exact (Lk L l HL Hl)].
    - intros v k. rewrite E1, E3, Eb. apply S4.
    - rewrite Es. exact S5.
    - intros E. destruct (P1 E) as [C _ _ _ _ _]. contradiction.
    - intros rho0 Sol. destruct (Sm rho0 Sol) as (rho & A1 & A2 & A3 & A4 & A5 & A6). exists rho. rewrite Eb, Es. split; [exact A1|]. split; [exact A2|]. split; [exact A3|].
      assert (X : forall L, ctrue (tv M (g_pa g) rho) (l_sym (v_sat lv)) L -> ctrue (tv M (g_pa g) rho) (l_sym (v_sat lv')) L).
      { intros L (l & Hl & v & Ev & Xv). exists l. split; [exact Hl|]. exists v. split; [rewrite E2; exact Ev|exact Xv]. }
      split; [|split; [exact A5|intros v k a; rewrite E1; apply A6]].
      intros L HL. rewrite Ec in HL. apply X. apply in_app_or in HL. destruct HL as [HL|HL]; [exact (A4 L HL)|exact (Lt rho A2 A3 A6 L HL)].
  Qed.

  Lemma lev_set c c' b b' : cx_stack c' = cx_stack c -> cx_sat c' = cx_sat c -> lev c' b' = set_box b' (lev c b).
  Proof. intros E1 E2. unfold lev, set_box. cbn [v_stack v_sat]. rewrite E1, E2. reflexivity. Qed.
  (** Only the box and the problem change. *)
  Lemma cinv_box g c b saved p ps c' b' p' : cinv g c b saved p ps -> csim c' b' saved -> cx_stack c' = cx_stack c -> cx_sat c' = cx_sat c -> cx_next c' = cx_next c ->
    linv g (set_box b' (lev c b)) p' -> (forall v, declared p' v -> okV v) -> cinv g c' b' saved p' ps.
  Proof.
    intros [I1 I2 I3 I4 I5 I6 I7 I8] Cs E1 E2 E3 L Dv. split; auto; try congruence.
    - rewrite (lev_set c c' b b' E1 E2). exact L.
    - intros q v [<-|Hq] H; [exact (Dv v H)|exact (I8 q v (or_intror Hq) H)].
  Qed.

  Lemma assert_step g c b saved p ps f c' : cinv g c b saved p ps -> op_ok_q M D fold K n qa (g_news g) p (OAssert f) -> cx_assert fold K f c = Some c' ->
    exists g' b', cinv g' c' b' saved (add_assert f p) ps /\ g_news g' = g_news g /\ gext g g'.
  Proof.
    intros C [Wf Ie] E. pose proof C as C0. destruct C0 as [I1 I2 I3 I4 I5 I6 I7 I8].
    assert (Od : over_declared p f) by (intros v Hv; destruct (proj2 (wf_fv _ _ _) f Wf v Hv) as [X|X]; apply X).
    assert (Dc : forall v, declared (add_assert f p) v -> okV v) by (intros v H; exact (I8 p v (or_introl eq_refl) H)).
    pose proof (li_box _ _ _ _ _ _ _ _ I6) as Kb. cbn [lev v_box] in Kb. pose proof (li_ph _ _ _ _ _ _ _ _ I6) as Ph. cbn [lev v_box] in Ph.
    assert (Fv : forall v, In v (fvF f) -> In v (bvars b)) by (intros v Hv; apply (li_dcl _ _ _ _ _ _ _ _ I6 v (Od v Hv))).
    pose proof (wfF_fin _ _ _ f Wf) as Fin.
    assert (Same : (forall rho, in_box rho b -> regular M D f rho -> holds M f rho -> in_box rho b) -> linv g (lev c b) (add_assert f p)).
    { intros Kp. exact (linv_assert_box M D fold n qa g (lev c b) p f b I2 I6 Od Kb (box_sub_refl b) Ph Kp). }
    assert (Stay : cinv g c b saved (add_assert f p) ps).
    { apply (cinv_box g c b saved p ps c b); auto. }
    unfold cx_assert in E. destruct (is_true f); [injection E as <-; exists g, b; auto using gext_refl|]. rewrite (csim_box _ _ _ I1) in E. cbn [bind] in E.
    destruct (b_empty b) eqn:Eb; [injection E as <-; exists g, b; auto using gext_refl|].
    destruct (is_false f) eqn:Ff.
    { destruct (csim_set (b_set_empty b) c b saved I1) as (c1 & E1 & H1 & X1 & X2 & X3 & _). rewrite E1 in E. injection E as <-. exists g, (b_set_empty b). split; [|split; [reflexivity|apply gext_refl]].
      apply (cinv_box g c b saved p ps c1); auto. apply linv_assert_box; auto.
      - exact (b_set_empty_ok b Kb).
      - split; [reflexivity|]. intros i x Hx. exfalso. unfold b_get, b_set_empty in Hx. cbn [bvals] in Hx. rewrite (map_nth (fun _ => IEmpty) (bvals b) IEmpty i) in Hx. exact Hx.
      - intros Ev Ee. exfalso. unfold b_empty, b_set_empty in Ee. cbn [bvals] in Ee. destruct (bvals b); discriminate Ee.
      - intros rho _ _ H. destruct f; try discriminate. destruct H. }
    destruct (filter_assertion f b) as [[r b']|] eqn:Ef; cbn [bind fst snd] in E; [|discriminate].
    destruct (filter_sub M f b r b' RC Kb Fv Fin Ef) as [Kb' Sb'].
    assert (L1 : linv g (set_box b' (lev c b)) (add_assert f p)).
    { apply linv_assert_box; auto.
      - exact (filter_phantom M f b r b' RC Kb Fv Fin Ef Ph).
      - intros rho H1 H2 H3. exact (filter_keeps M f b b' r RC Kb Fv Fin Ef rho H1 H3 (reg_gap M D f rho H2 true)). }
    destruct r; try (destruct (csim_set b' c b saved I1) as (c1 & E1 & H1 & X1 & X2 & X3 & _); rewrite E1 in E; injection E as <-; exists g, b'; split; [|split; [reflexivity|apply gext_refl]];
      exact (cinv_box g c b saved p ps c1 b' _ C H1 X1 X2 X3 L1 Dc)).
    destruct (ite_process fold K f (cx_next c)) as [gg s] eqn:Ep.
    destruct (csim_set (fold_left b_add_new (it_vars s) b') c b saved I1) as (c1 & E1 & H1 & X1 & X2 & X3 & _). rewrite E1 in E. cbn [bind] in E.
    destruct (sat_add_formula fold gg (it_next s) (cx_sat c1)) as [[st' nx']|] eqn:Ea; cbn [bind fst snd] in E; [|discriminate]. injection E as <-. rewrite X2 in Ea.
    rewrite <- I3 in Ep.
    destruct (linv_assert_full M D fold K n qa g (set_box b' (lev c b)) p f gg s (cx_sat c) st' nx' _ I2 L1 Wf Ie Ep eq_refl Ea eq_refl (eq_sym I4) (eq_sym I5))
      as (g' & G' & Ge & L' & N1 & N2 & N3 & N4).
    cbn [set_box v_box] in L'. exists g', (fold_left b_add_new (it_vars s) b'). split; [|split; [exact N1|exact Ge]]. split; auto.
    - eapply csim_frame; [exact H1|reflexivity| |]; cbn [cx_with_sat cx_push_stack cx_stack cx_sat].
      + eapply vsim_back. apply H1.
      + eapply add_formula_sim; [apply I1|exact Ea].
    - unfold lv_after in L'. unfold lev. cbn [cx_with_sat cx_push_stack cx_stack cx_sat sv_push_back sv_vec]. rewrite X1. exact L'.
    - exact (saved_mono g g' saved ps Ge I7).
    - intros q v [<-|Hq] H; [exact (Dc v H)|exact (I8 q v (or_intror Hq) H)].
  Qed.

  Lemma check_step g c b saved p ps m r c' : cinv g c b saved p ps -> (forall v a, In (v, a) (ss_pa (cx_sat c)) -> okA a) -> cx_check fold pico T mid precision m c = Some (r, c') ->
    cinv g c' b saved p ps /\ (r = None -> ~ exists rho, solution M D p rho).
  Proof.
    intros C HA E. unfold cx_check in E. destruct (check_core fold pico T m c) as [[ob c1]|] eqn:Ec; cbn [bind] in E; [|discriminate].
    assert (X : cinv g c1 b saved p ps /\ (ob = None -> ~ exists rho, solution M D p rho)).
    { pose proof C as C0. destruct C0 as [I1 I2 I3 I4 I5 I6 I7 I8]. unfold check_core in Ec. rewrite (csim_box _ _ _ I1) in Ec. cbn [bind] in Ec.
      destruct (b_empty b) eqn:Eb.
      { injection Ec as <- <-. split; [exact C|]. intros _ [rho0 Sol]. destruct (li_sem _ _ _ _ _ _ _ _ I6 rho0 Sol) as (rho & _ & _ & [A _] & _). cbn [lev v_box] in A. congruence. }
      destruct (existsb is_false (sv_vec (cx_stack c))) eqn:Ex.
      { injection Ec as <- <-. split; [exact C|]. intros _ [rho0 Sol]. destruct (li_sem _ _ _ _ _ _ _ _ I6 rho0 Sol) as (rho & _ & _ & _ & _ & A & _).
        apply existsb_exists in Ex. destruct Ex as (h & Hh & Fh). specialize (A h Hh). destruct h; try discriminate. exact A. }
      destruct (sv_vec (cx_stack c)) as [|h st] eqn:Est; [injection Ec as <- <-; split; [exact C|discriminate]|].
      destruct (match h :: st with [f0] => is_true f0 | _ => false end); [injection Ec as <- <-; split; [exact C|discriminate]|].
      destruct (core_loop fold pico T m b (cx_sat c) (cx_next c) (cx_calls c)) as [[[[ob' s'] nx'] t']|] eqn:El; cbn [bind] in Ec; [|discriminate].
      assert (Sc : score fold qa okA okV b (cx_sat c) (cx_next c)).
      { split.
        - split; [exact (linv_sat_inv M D fold n qa g (lev c b) p (cx_sat c) I6 eq_refl (eq_sym I5))|]. rewrite <- I3, <- I4. exact (go_pa fold n g I2).
        - intros v Hv. destruct (li_bv _ _ _ _ _ _ _ _ I6 v Hv) as [H|[_ H]]; [exact (I8 p v (or_introl eq_refl) H)|]. exact (OKV_CONT v H).
        - exact HA.
        - intros v k Hk. rewrite <- I4. destruct (li_var _ _ _ _ _ _ _ _ I6 v k Hk) as [H|[H1 H2]]; [left; exact H|right; split; [exact H1|]].
          destruct H2 as [H2|H2]; [left; unfold is_tse; cbn [lev v_sat slv l_tse] in H2; destruct (al_find var_eqb v (sm_map (ss_tse (cx_sat c)))); [reflexivity|congruence]|right; exact H2]. }
      destruct (core_sem M D fold pico T qa okA okV P_ok T_ok m b b (cx_sat c) (cx_next c) (cx_calls c) ob' s' nx' t' Sc (bu_refl b (li_box _ _ _ _ _ _ _ _ I6) (li_rng _ _ _ _ _ _ _ _ I6)) El)
        as (-> & A2 & A3 & A4 & A5 & A6 & (ln & A7 & A8 & A9) & A10).
      assert (Fn : forall rho, well_typed rho -> in_box rho b -> (forall v k a, sat_of (cx_sat c) v = Some k -> In (v, a) (g_pa g) -> regular M D a rho) -> fine M D b (cx_sat c) rho).
      { intros rho H1 H2 H3. split; [exact H1|]. split; [exact H2|]. rewrite <- I4. exact H3. }
      injection Ec as -> <-. split.
      - split; cbn [cx_next cx_sat cx_stack cx_boxes]; auto; try congruence.
        + eapply csim_frame; [exact I1|reflexivity|apply I1|]. cbn [cx_sat]. eapply core_loop_sim; [apply I1|exact El].
        + apply (linv_check g (lev c b) _ p ln I6); cbn [lev v_stack v_box v_sat slv l_cls l_sat l_sym l_tse cx_stack cx_sat]; auto.
          * rewrite Est. discriminate.
          * intros v. rewrite A6. reflexivity.
          * intros rho H1 H2 H3 L HL. rewrite I4. apply A9; auto.
      - intros Eo [rho0 Sol]. destruct (li_sem _ _ _ _ _ _ _ _ I6 rho0 Sol) as (rho & B1 & B2 & B3 & B4 & B5 & B6). cbn [lev v_stack v_box v_sat slv l_cls l_sat l_sym l_tse] in *.
        apply (A10 Eo rho (Fn rho B2 B3 B6)). rewrite <- I4. exact B4. }
    destruct X as [X Y].
    assert (Z : forall mo, cinv g (cx_with_model mo c1) b saved p ps).
    { intros mo. apply (cinv_box g c1 b saved p ps); auto.
      - eapply csim_frame; [exact (ci_sim _ _ _ _ _ _ X)|reflexivity|apply X|apply X].
      - exact (ci_lev _ _ _ _ _ _ X).
      - intros v H. exact (ci_dcl _ _ _ _ _ _ X p v (or_introl eq_refl) H). }
    destruct ob as [mo|].
    - destruct (tighten mid precision mo) as [m1|]; cbn [bind] in E; [|discriminate]. injection E as <- <-. split; [apply Z|discriminate].
    - injection E as <- <-. split; [apply Z|]. intros _. exact (Y eq_refl).
  Qed.

  Lemma declared_declare v p w : declared (declare v p) w -> declared p w \/ w = v.
  Proof.
    unfold declared, declare. destruct (mem_var v (map fst (p_doms p))); [auto|]. cbn [p_doms]. rewrite map_app. intros H. apply in_app_or in H. destruct H as [H|[H|[]]]; auto.
  Qed.
  (** Which variables may be declared: all of them, unless the theory solver restricts them. *)
  Definition op_okV (o : cop) : Prop := match o with ODeclare v _ | ODeclareDom v _ _ _ => okV v | _ => True end.

  (** The scopes that a call leaves saved. *)
  Definition saved_step (o : cop) (c : ctx) (b : box) (saved : list level) : list level :=
    match o with OPush => lev c b :: saved | OPop => tl saved | _ => saved end.
  Lemma step_inv g c b saved p ps o c' a : cinv g c b saved p ps -> op_ok_q M D fold K n qa (g_news g) p o -> op_okV o -> (forall v f, In (v, f) (ss_pa (cx_sat c)) -> okA f) ->
    step o c = Some (c', a) ->
    (exists g' b', cinv g' c' b' (saved_step o c b saved) (fst (p_step o (p, ps))) (snd (p_step o (p, ps))) /\ g_news g' = news_step o (g_news g) /\ gext g g' /\
       (o = OPop -> exists l, saved = l :: tl saved /\ lev c' b' = l)) /\
    match o with OCheck _ => exists r, a = [r] /\ (r = None -> ~ exists rho, solution M D p rho) | _ => a = [] end.
  Proof.
    intros C Ok Vk HA E. pose proof C as C0. destruct C0 as [I1 I2 I3 I4 I5 I6 I7 I8]. destruct o; cbn [cx_step op_ok_q op_okV p_step fst snd news_step saved_step] in *.
    - destruct (Nat.eqb (vid v) (cx_next c)) eqn:En; [|discriminate]. apply Nat.eqb_eq in En. injection E as <- <-. split; [|reflexivity].
      set (g' := {| g_news := v :: g_news g; g_int := g_int g; g_pa := g_pa g; g_nx := S (cx_next c); g_mx := g_mx g |}).
      assert (Ge : gext g g'). { split; cbn [g' g_news g_int g_pa g_nx g_mx]; try apply incl_refl; try lia; [intros w H; right; exact H|auto|]. intros w [<-|H]; [right; lia|left; exact H]. }
      exists g', b. split; [|split; [reflexivity|split; [exact Ge|discriminate]]]. destruct I2 as [G1 G2 G3 G4 G5 G6]. split; auto.
      + apply next_sim. exact I1.
      + split; cbn [g' g_news g_int g_pa g_nx g_mx]; try lia.
        * destruct G1 as [A1 A2 A3 A4 A5]. split; cbn [pa_next pa_map] in *; auto. intros w h H. pose proof (A2 w h H). lia.
        * intros w [<-|H]; [lia|]. apply G3 in H. lia.
        * intros w H. destruct (G4 w H) as [H1 H2]. split; [lia|]. intros [->|C0]; [lia|contradiction].
        * intros w h H. destruct (G5 w h H) as (H1 & H2 & H3). split; [exact H1|]. split; [|exact H3]. intros [->|C0]; [|contradiction]. pose proof (pk_lt fold _ G1 w h H) as X. cbn [pa_next] in X. lia.
        * intros w h u H H'. destruct (G6 w h u H H') as [[X|X]|X]; [left; left; exact X|left; right; right; exact X|right; exact X].
      + exact (linv_mono _ _ _ _ _ _ _ _ _ Ge I6).
      + exact (saved_mono _ _ _ _ Ge I7).
    - destruct (cx_declare v model c) as [c1|] eqn:E1; cbn [bind] in E; [|discriminate]. injection E as <- <-. split; [|reflexivity].
      destruct (declare_sim _ _ _ _ _ _ I1 E1) as (S1 & S2 & S3 & S4). exists g, (b_add_new b v). split; [|split; [reflexivity|split; [apply gext_refl|discriminate]]].
      apply (cinv_box g c b saved p ps c1); auto; [exact (linv_declare M D fold n qa g (lev c b) p v I2 Ok I6)|].
      intros w H. destruct (declared_declare v p w H) as [H1| ->]; [exact (I8 p w (or_introl eq_refl) H1)|exact Vk].
    - destruct (cx_declare v model c) as [c1|] eqn:E1; cbn [bind] in E; [|discriminate]. destruct (cx_set_interval v l u c1) as [c2|] eqn:E2; cbn [bind] in E; [|discriminate].
      injection E as <- <-. split; [|reflexivity]. destruct Ok as (O1 & O2 & O3).
      destruct (declare_sim _ _ _ _ _ _ I1 E1) as (S1 & S2 & S3 & S4). destruct (set_interval_sim _ _ _ _ _ _ _ S1 E2) as (U1 & U2 & U3 & U4).
      exists g, (b_setv (b_add_new b v) v (mk_ival l u)). split; [|split; [reflexivity|split; [apply gext_refl|discriminate]]].
      apply (cinv_box g c b saved p ps c2); auto; try congruence; [exact (linv_declare_set M D fold n qa g (lev c b) p v l u I2 O1 O2 O3 I6)|].
      intros w H. apply declared_set in H. destruct (declared_declare v p w H) as [H1| ->]; [exact (I8 p w (or_introl eq_refl) H1)|exact Vk].
    - destruct (cx_set_interval v l u c) as [c2|] eqn:E2; cbn [bind] in E; [|discriminate]. injection E as <- <-. split; [|reflexivity]. destruct Ok as (O1 & O2 & O3).
      destruct (set_interval_sim _ _ _ _ _ _ _ I1 E2) as (U1 & U2 & U3 & U4). exists g, (b_setv b v (mk_ival l u)). split; [|split; [reflexivity|split; [apply gext_refl|discriminate]]].
      apply (cinv_box g c b saved p ps c2); auto; [exact (linv_redomain M D fold n qa g (lev c b) p v l u I2 O1 O2 O3 I6)|].
      intros w H. apply declared_set in H. exact (I8 p w (or_introl eq_refl) H).
    - destruct (cx_assert fold K f c) as [c1|] eqn:E1; cbn [bind] in E; [|discriminate]. injection E as <- <-. split; [|reflexivity].
      destruct (assert_step g c b saved p ps f c1 C Ok E1) as (g' & b' & C' & N' & Ge). exists g', b'. split; [exact C'|split; [exact N'|split; [exact Ge|discriminate]]].
    - destruct (cx_push_sim c b saved I1) as (c1 & E1 & H1 & H2 & H3 & H4 & H5). rewrite E1 in E. cbn [bind] in E. injection E as <- <-. split; [|reflexivity].
      set (g' := {| g_news := g_news g; g_int := g_int g; g_pa := g_pa g; g_nx := g_nx g; g_mx := S (g_mx g) |}).
      assert (Ge : gext g g'). { split; cbn [g' g_news g_int g_pa g_nx g_mx]; try apply incl_refl; try lia; auto. }
      exists g', b. split; [|split; [reflexivity|split; [exact Ge|discriminate]]]. destruct I2 as [G1 G2 G3 G4 G5 G6]. split; auto; cbn [g' g_nx g_pa g_mx]; try congruence.
      + split; assumption.
      + rewrite H2. exact (linv_mono _ _ _ _ _ _ _ _ _ Ge I6).
      + constructor; [exact (linv_mono _ _ _ _ _ _ _ _ _ Ge I6)|exact (saved_mono _ _ _ _ Ge I7)].
      + intros q v [<-|[<-|Hq]]; [apply I8; left; reflexivity|apply I8; left; reflexivity|apply I8; right; exact Hq].
    - destruct saved as [|l saved].
      + exfalso. unfold cx_pop in E. destruct I1 as [[_ A] B _]. cbn [map bscopes] in A.
        assert (P : sv_pop (cx_boxes c) = Throw) by (unfold sv_pop; rewrite A; reflexivity). rewrite P in E.
        destruct (sv_pop (cx_stack c)) as [[? ?]| |]; discriminate.
      + destruct (cx_pop_sim c b l saved I1) as (c1 & E1 & H1 & H2 & H3 & H4 & H5). rewrite E1 in E. cbn [bind] in E. injection E as <- <-. split; [|reflexivity].
        inversion I7 as [|x q xs qs Hl Hs]; subst. cbn [fst snd]. exists g, (v_box l). split; [|split; [reflexivity|split; [apply gext_refl|intros _; exists l; split; [reflexivity|exact H2]]]]. split; auto; try congruence.
        * intros q' v Hq. apply I8. right. exact Hq.
    - destruct (cx_check fold pico T mid precision fuel c) as [[r c1]|] eqn:E1; cbn [bind fst snd] in E; [|discriminate]. injection E as <- <-.
      destruct (check_step g c b saved p ps fuel r c1 C HA E1) as [C1 R1]. split; [|exists r; auto]. exists g, b. split; [exact C1|split; [reflexivity|split; [apply gext_refl|discriminate]]].
  Qed.

  Lemma run_inv ops : forall g c b saved p ps c' a, cinv g c b saved p ps -> admissible_q M D fold K n qa ops (g_news g) (p, ps) -> Forall op_okV ops ->
    run ops c = Some (c', a) -> (forall v f, In (v, f) (ss_pa (cx_sat c')) -> okA f) ->
    (exists g' b' saved' p' ps', cinv g' c' b' saved' p' ps') /\
    Forall2 (fun q r => r = None -> ~ exists rho, solution M D q rho) (problems ops (p, ps)) a.
  Proof.
    induction ops as [|o ops IH]; intros g c b saved p ps c' a C Ad Vk E HA; cbn [cx_run] in E.
    { injection E as <- <-. split; [eauto 10|constructor]. }
    destruct (step o c) as [[c1 a1]|] eqn:E1; cbn [bind fst snd] in E; [|discriminate].
    destruct (run ops c1) as [[c2 a2]|] eqn:E2; cbn [bind fst snd] in E; [|discriminate]. injection E as <- <-.
    destruct Ad as [Ok Ad]. inversion Vk as [|? ? Vo Vr]; subst. cbn [fst] in Ok.
    assert (HA0 : forall v f, In (v, f) (ss_pa (cx_sat c)) -> okA f).
    { intros v f H. apply (HA v f). apply (run_pa fold K pico T mid precision ops c1 c2 a2 E2). apply (step_pa fold K pico T mid precision o c c1 a1 E1). exact H. }
    destruct (step_inv g c b saved p ps o c1 a1 C Ok Vo HA0 E1) as [(g' & b' & C' & N' & _ & _) Ra].
    rewrite <- N' in Ad. rewrite (surjective_pairing (p_step o (p, ps))) in Ad.
    destruct (IH g' c1 b' _ _ _ c2 a2 C' Ad Vr E2 HA) as [X Y]. split; [exact X|].
    rewrite <- (surjective_pairing (p_step o (p, ps))) in Y.
    destruct o; try (subst a1; exact Y). destruct Ra as (r & -> & Hr). cbn [problems app fst]. constructor; [exact Hr|exact Y].
  Qed.
  Lemma init_inv : cinv {| g_news := []; g_int := []; g_pa := []; g_nx := n; g_mx := 0 |} (cx_init n) box0 [] p_empty [].
  Proof.
    split; try reflexivity; try (apply cx_init_sim).
    - split; cbn [g_nx g_news g_int g_pa]; try (intros; contradiction); [|lia]. exact (pa_ok_init fold n).
    - assert (Kb : box_ok box0) by (split; [constructor|split; [reflexivity|repeat constructor]]).
      assert (Pr : pristine (lev (cx_init n) box0) p_empty) by (split; try reflexivity; intros; contradiction).
      split; cbn [lev v_box v_stack v_sat]; auto; try (intros; discriminate).
      + intros i v x H. destruct i; discriminate.
      + intros _ _ x. split; exact Logic.I.
      + intros v [].
      + constructor.
      + intros L l [].
      + intros f v [].
      + intros rho0 Sol. exact (pri_sem M D _ (lev (cx_init n) box0) p_empty rho0 Kb Pr Sol).
    - constructor.
    - intros q v [<-|[]] [].
  Qed.

  Theorem run_unsat ops c a : run ops (cx_init n) = Some (c, a) -> admissible_q M D fold K n qa ops [] (p_empty, []) -> Forall op_okV ops ->
    (forall v f, In (v, f) (ss_pa (cx_sat c)) -> okA f) ->
    Forall2 (fun q r => r = None -> ~ exists rho, solution M D q rho) (problems ops (p_empty, [])) a.
  Proof. intros E Ad Vk HA. exact (proj2 (run_inv ops _ _ _ _ _ _ c a init_inv Ad Vk E HA)). Qed.
End Hist.
