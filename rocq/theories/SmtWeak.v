(** * Delta-sat answers for SMT-LIB scripts (C02) *)
From Coq Require Import ZArith Reals Lra Lia List Bool.
From Flocq Require Import IEEE754.BinarySingleNaN.
From Verif Require Import Dbl DblProofs Syntax Sem SemProofs FormulaCons FormulaConsProofs Scoped Interval IntervalProofs IEval IEvalProofs MathConv Contr ContrProofs IbexConv IbexConvProofs Icp IcpProofs IcpPar Filter Theory TheoryUsed
  StdInterp SpecForm ExprAlg SpecAlg ExprAlgProofs AlgTop SmtOcc SpecIte IteElim IteElimProofs Regular Wff WffProofs Sat Context SpecCtx SpecModel SpecWeak CtxStruct SatSem CtxInv CtxTop CtxModelTop CtxDelta CtxDeltaInv
  Minim Smt2 SpecSmt2 Smt2Proofs Smt2Top Smt2Sound ApiProofs DrTop SpecSmtWeak.
Import ListNotations.
Local Notation R := Rdefinitions.R.

Section Front.
  Variables (uf : nat -> list R -> R) (rc : dbl -> dbl -> R) (fpow : dbl -> dbl -> dbl) (n : nat) (alloc : nat -> nat).
  Notation M := (std uf rc).
  Notation ok := (Forall (exact M)).
  Notation el := (elab fpow n alloc).
  Notation SI := (SInv alloc).
  Notation Mean := (means uf rc).
  Hypothesis Hal : forall i j, i < j -> alloc i < alloc j.
  Variables (delta : R) (exc : expr -> expr -> env -> Prop).
  Hypothesis Pd : (0 < delta)%R.
  Section Term.
    Variables (s00 : drv) (FN : fenv) (FD : nat -> list value -> Prop) (E : nenv) (rho : env) (xc : sterm -> sterm -> Prop).
    Definition here (s : drv) : Prop := SI s /\ d_scope s = d_scope s00 /\ d_funs s = d_funs s00.
    Hypothesis HR : RelS s00 E rho.
    Hypothesis HF : FR uf rc s00 FN FD rho.
    Hypothesis HX : forall a b x y s1 s1' t1 s2 s2' t2, here s1 -> here s2 -> el a s1 = (Val (TmE x, s1'), t1) -> el b s2 = (Val (TmE y, s2'), t2) -> exc x y rho -> xc a b.
    Notation Df := (fun t => defd M FN stdD FD t E).
    Notation sw := (fun pol t => sweak M FN delta xc pol t E).
    Notation wk := (fun pol f => weakened M delta exc pol f rho).

    Lemma step t s tm s' tr : here s -> el t s = (Val (tm, s'), tr) -> ok tr -> plain_term t -> has_let t = false -> Forall kept (d_notes s') -> here s' /\ (Df t -> Mean FN t E tm rho).
    Proof.
      intros (H1 & H2 & H3) Et Ht Hp Hl Hk. destruct (elab_ok uf rc fpow n alloc Hal t s tm s' tr H1 Et Ht Hp Hk) as (cs & S1 & _ & Hc & Hs). specialize (Hc Hl). subst cs.
      pose proof (elab_sc fpow n alloc t s _ _ Et) as Sc. cbn [snd] in Sc. destruct S1 as (_ & Fu & HI & _). split; [split; [exact HI|split; congruence]|].
      intros D. destruct (Hs FN FD E D rho) as [X _]; [apply (same_scope s00); auto|apply (same_funs uf rc s00); auto|exact I|]. destruct (X (fun f C => False_ind _ C)) as [Y _]. exact Y.
    Qed.
    Definition TW (t : sterm) : Prop := forall s f s' tr, here s -> el t s = (Val (TmF f, s'), tr) -> ok tr -> plain_term t -> has_let t = false -> Forall kept (d_notes s') -> Df t ->
      forall pol, wk pol f -> sw pol t.
    Definition wt (t : sterm) (tm : term) : Prop := forall f, tm = TmF f -> forall pol, wk pol f -> sw pol t.
    Lemma kept_one a s p t : el a s = (Val p, t) -> Forall kept (d_notes (snd p)) -> Forall kept (d_notes s).
    Proof. intros Ea. apply (kept_mono s (snd p)). apply (elab_notes fpow n alloc a s p t Ea). Qed.
    Lemma lists l : Forall TW l -> forall s tms s' tr, here s -> elabs el l s = (Val (tms, s'), tr) -> ok tr -> Forall plain_term l -> existsb has_let l = false -> Forall kept (d_notes s') -> Forall Df l -> Forall2 wt l tms.
    Proof.
      induction 1 as [|a l Ha Hl IH]; intros s tms s' tr HI El Ht Hp Hh Hk Hd; cbn [elabs] in El.
      - apply ret_val in El. destruct El as [El _]. assert (tms = []) as -> by congruence. constructor.
      - apply bind_val in El. destruct El as ([p s1] & t1 & t2 & E1 & E2 & ->). apply bind_val in E2. destruct E2 as ([q s2] & t3 & t4 & E2 & E3 & ->).
        apply ret_val in E3. destruct E3 as [E3 ->]. cbn [fst snd] in *. assert (tms = p :: q /\ s' = s2) as [-> ->] by (split; congruence). rewrite app_nil_r in Ht. apply Forall_app in Ht. destruct Ht as [O1 O2].
        cbn [existsb] in Hh. apply orb_false_iff in Hh. destruct Hh as [Ll Lr]. pose proof (Forall_inv Hp) as Pa. pose proof (Forall_inv_tail Hp) as Pl.
        assert (Hk1 : Forall kept (d_notes s1)) by (apply (kept_mono s1 s2); auto; apply (elabs_notes fpow n alloc l) with (r := (q, s2)) (tr := t3); auto; apply Forall_forall; intros x _; apply elab_notes).
        destruct (step a s p s1 t1 HI E1 O1 Pa Ll Hk1) as [H1 _]. constructor; [|apply (IH s1 q s2 t3 H1 E2 O2 Pl Lr Hk (Forall_inv_tail Hd))].
        intros f -> pol W. apply (Ha s f s1 t1 HI E1 O1 Pa Ll Hk1 (Forall_inv Hd) pol W).
    Qed.
    Lemma fold_and l tms : Forall2 wt l tms -> forall f g tr, fold_form mk_and tms f = (Val g, tr) -> forall pol, wk pol g ->
      both pol (wk pol f) (if pol then fold_right (fun a acc => sw true a /\ acc) True l else fold_right (fun a acc => sw false a \/ acc) False l).
    Proof.
      induction 1 as [|a tm l tms Ha _ IH]; intros f g tr Ef pol W; cbn [fold_form] in Ef.
      - apply ret_val in Ef. destruct Ef as [-> _]. destruct pol; cbn [both fold_right]; auto.
      - apply bind_val in Ef. destruct Ef as (h & t1 & t2 & E1 & E2 & _). apply getF_val in E1. destruct E1 as [-> _]. specialize (IH _ _ _ E2 pol W). specialize (Ha h eq_refl).
        destruct pol; cbn [both fold_right] in *; rewrite wk_mk_and in IH; cbn [both] in IH; [destruct IH as [[H1 H2] H3]; auto|destruct IH as [[H1|H1]|H1]; auto].
    Qed.
    Lemma fold_or l tms : Forall2 wt l tms -> forall f g tr, fold_form mk_or tms f = (Val g, tr) -> forall pol, wk pol g ->
      both (negb pol) (wk pol f) (if pol then fold_right (fun a acc => sw true a \/ acc) False l else fold_right (fun a acc => sw false a /\ acc) True l).
    Proof.
      induction 1 as [|a tm l tms Ha _ IH]; intros f g tr Ef pol W; cbn [fold_form] in Ef.
      - apply ret_val in Ef. destruct Ef as [-> _]. destruct pol; cbn [negb both fold_right]; auto.
      - apply bind_val in Ef. destruct Ef as (h & t1 & t2 & E1 & E2 & _). apply getF_val in E1. destruct E1 as [-> _]. specialize (IH _ _ _ E2 pol W). specialize (Ha h eq_refl).
        destruct pol; cbn [negb both fold_right] in *; rewrite wk_mk_or in IH; cbn [negb both] in IH; [destruct IH as [[H1|H1]|H1]; auto|destruct IH as [[H1 H2] H3]; auto].
    Qed.
    Lemma fold_xor l tms : Forall2 wt l tms -> forall f g tr, fold_form xor_step tms f = (Val g, tr) -> forall p : Prop * Prop, (wk true f -> fst p) -> (wk false f -> snd p) ->
      let r := fold_left xor_weak (map (fun a => (sw true a, sw false a)) l) p in (wk true g -> fst r) /\ (wk false g -> snd r).
    Proof.
      induction 1 as [|a tm l tms Ha _ IH]; intros f g tr Ef p H1 H2; cbn [fold_form] in Ef.
      - apply ret_val in Ef. destruct Ef as [-> _]. cbn. auto.
      - apply bind_val in Ef. destruct Ef as (h & t1 & t2 & E1 & E2 & _). apply getF_val in E1. destruct E1 as [-> _]. specialize (Ha h eq_refl). cbn [map fold_left].
        pose proof (Ha true) as HT. pose proof (Ha false) as HFa. cbv beta in HT, HFa. apply (IH _ _ _ E2); unfold xor_weak, xor_step; cbn [fst snd]; rewrite wk_mk_or, !wk_mk_and, !wk_mk_not; cbn [both negb]; tauto.
    Qed.
    Lemma rel_built o x y g t : mk_relm fpow n o x y = (Val g, t) -> g = FRel o x y \/ g = FTrue \/ g = FFalse.
    Proof.
      intros Er. unfold mk_relm in Er. apply bind_val in Er. destruct Er as (e & t5 & t6 & _ & Er & _).
      destruct e as [c| | | | | | | |]; try (apply ret_val in Er; destruct Er as [-> _]; left; reflexivity). destruct (is_nan c); [apply ret_val in Er; destruct Er as [-> _]; left; reflexivity|].
      apply bind_val in Er. destruct Er as (u & t7 & t8 & _ & Er & _). apply ret_val in Er. destruct Er as [-> _]. right. destruct (relop_on o c); auto.
    Qed.
    Lemma rel_case o x y g t pol (Q : Prop) : mk_relm fpow n o x y = (Val g, t) -> ok t -> defE M stdD x rho -> defE M stdD y rho -> wk pol g -> (exc x y rho -> Q) ->
      weakR delta (if pol then o else relop_neg o) (evalE M x rho) (evalE M y rho) \/ Q.
    Proof.
      intros Er Ht Dx Dy W HQ. destruct (mk_relm_ev uf rc fpow n o x y rho g t Er Ht Dx Dy) as [_ Y]. destruct (rel_built _ _ _ _ _ Er) as [->|[->| ->]]; cbn [weakened] in W.
      - destruct W as [W|W]; [left; exact W|right; auto].
      - subst pol. left. apply (rel_weak delta _ _ _ Pd). apply Y. exact I.
      - subst pol. left. apply (rel_weak delta _ _ _ Pd), rel_neg. intros C. apply Y in C. exact C.
    Qed.
    Lemma forall_of (P : sterm -> Prop) l : fold_right (fun a acc => P a /\ acc) True l -> Forall P l.
    Proof. induction l as [|a l IH]; cbn; [constructor|intros [H1 H2]; constructor; auto]. Qed.
    Lemma pair_ok a b s p t1 q s2 t2 : here s -> el a s = (Val p, t1) -> el b (snd p) = (Val (q, s2), t2) -> ok t1 -> ok t2 -> plain_term a -> plain_term b -> has_let a = false -> has_let b = false ->
      Forall kept (d_notes s2) -> here (snd p) /\ here s2 /\ Forall kept (d_notes (snd p)) /\ (Df a -> Mean FN a E (fst p) rho) /\ (Df b -> Mean FN b E q rho).
    Proof.
      intros HI E1 E2 O1 O2 Pa Pb La Lb Hk. assert (Hk1 : Forall kept (d_notes (snd p))) by (apply (kept_one b _ (q, s2) t2 E2); exact Hk). destruct p as [p s1]. cbn [fst snd] in *.
      destruct (step a s p s1 t1 HI E1 O1 Pa La Hk1) as [H1 M1]. destruct (step b s1 q s2 t2 H1 E2 O2 Pb Lb Hk) as [H2 M2]. auto.
    Qed.
    Theorem term_weak t : TW t.
    Proof.
      induction t using sterm_ind2; intros s f' s' tr HI Et Ht Hp Hl Hk Hd pol W; cbn [elab] in Et; cbn [plain_term has_let defd] in Hp, Hl, Hd.
      - apply ret_val in Et. destruct Et as [Et _]. assert (f' = FTrue) as -> by congruence. exact W.
      - apply ret_val in Et. destruct Et as [Et _]. assert (f' = FFalse) as -> by congruence. exact W.
      - destruct (assoc x (d_scope s)) as [v|] eqn:Ea; [|discriminate]. apply ret_val in Et. destruct Et as [Et _]. cbn [sweak].
        destruct HI as (_ & Sc & _). rewrite Sc in Ea. rewrite (HR x v Ea). unfold varval. destruct (vty v) eqn:Tv; try discriminate Et. assert (f' = FVar v) as -> by congruence.
        cbn [weakened] in W. destruct pol; f_equal; [apply decide_true; exact W|apply decide_false; exact W].
      - apply ret_val in Et. destruct Et as [Et _]. discriminate Et.
      - apply ret_val in Et. destruct Et as [Et _]. discriminate Et.
      - (* = *) destruct Hp as [Pa Pb]. destruct Hd as [Da Db]. apply orb_false_iff in Hl. destruct Hl as [La Lb].
        apply bind_val in Et. destruct Et as (p & u1 & u2 & E1 & Et & ->). apply bind_val in Et. destruct Et as ([q s2] & u3 & u4 & E2 & Et & ->). apply Forall_app in Ht. destruct Ht as [O1 O2]. apply Forall_app in O2. destruct O2 as [O2 O3].
        assert (s' = s2) as ->. { cbn [fst snd] in Et. destruct (fst p), q; try discriminate; [apply bind_val in Et; destruct Et as (g & ? & ? & _ & Et & _)|]; apply ret_val in Et; destruct Et as [Et _]; congruence. }
        destruct (pair_ok t1 t2 s p u1 q s2 u3 HI E1 E2 O1 O2 Pa Pb La Lb Hk) as (H1 & H2 & Hk1 & M1 & M2). specialize (M1 Da). specialize (M2 Db). destruct p as [p s1]. cbn [fst snd] in *.
        destruct p as [x|x], q as [y|y]; try discriminate Et.
        + apply bind_val in Et. destruct Et as (g & u5 & u6 & E3 & Et & ->). apply ret_val in Et. destruct Et as [Et ->]. assert (f' = g) as -> by congruence. rewrite app_nil_r in O3.
          destruct (means_E _ _ _ _ _ _ _ M1) as [V1 D1]. destruct (means_E _ _ _ _ _ _ _ M2) as [V2 D2]. cbn [sweak]. rewrite V1, V2.
          pose proof (rel_case REq x y g u5 pol (xc t1 t2) E3 O3 D1 D2 W (HX t1 t2 x y s s1 u1 s1 s2 u3 HI H1 E1 E2)) as C. destruct pol; exact C.
        + apply ret_val in Et. destruct Et as [Et _]. assert (f' = mk_feq x y) as -> by congruence.
          destruct (means_F _ _ _ _ _ _ _ M1) as [V1 _]. cbn [sweak]. rewrite V1.
          pose proof (fun pol => IHt1 s x s1 u1 HI E1 O1 Pa La Hk1 Da pol) as W1. pose proof (fun pol => IHt2 s1 y s2 u3 H1 E2 O2 Pb Lb Hk Db pol) as W2. pose proof (W1 true) as A1. pose proof (W1 false) as A2. pose proof (W2 true) as B1. pose proof (W2 false) as B2. cbv beta in A1, A2, B1, B2.
          unfold mk_feq in W. apply wk_mk_and in W. destruct pol; cbn [both] in W; rewrite !wk_mk_or in W; cbn [both negb] in W; rewrite !wk_mk_not in W; cbn [negb] in W; tauto.
      - (* comparison *) destruct Hp as [Pa Pb]. destruct Hd as [Da Db]. apply orb_false_iff in Hl. destruct Hl as [La Lb].
        apply bind_val in Et. destruct Et as (p & u1 & u2 & E1 & Et & ->). apply bind_val in Et. destruct Et as ([q s2] & u3 & u4 & E2 & Et & ->). apply Forall_app in Ht. destruct Ht as [O1 O2]. apply Forall_app in O2. destruct O2 as [O2 O3].
        apply bind_val in Et. destruct Et as (x & u5 & u6 & E3 & Et & ->). apply bind_val in Et. destruct Et as (y & u7 & u8 & E4 & Et & ->). apply bind_val in Et. destruct Et as (g & u9 & u10 & E5 & Et & ->).
        apply ret_val in Et. destruct Et as [Et ->]. cbn [fst snd] in *. apply getE_val in E3. destruct E3 as [Ep ->]. apply getE_val in E4. destruct E4 as [Eq ->]. assert (f' = g /\ s' = s2) as [-> ->] by (split; congruence). cbn [app] in O3. rewrite app_nil_r in O3.
        destruct (pair_ok t1 t2 s p u1 q s2 u3 HI E1 E2 O1 O2 Pa Pb La Lb Hk) as (H1 & H2 & Hk1 & M1 & M2). specialize (M1 Da). specialize (M2 Db). destruct p as [p s1]. cbn [fst snd] in *. subst p q.
        destruct (means_E _ _ _ _ _ _ _ M1) as [V1 D1]. destruct (means_E _ _ _ _ _ _ _ M2) as [V2 D2]. cbn [sweak]. rewrite V1, V2. cbn [vr].
        exact (rel_case o x y g u9 pol (xc t1 t2) E5 O3 D1 D2 W (HX t1 t2 x y s s1 u1 s1 s2 u3 HI H1 E1 E2)).
      - apply bind_val in Et. destruct Et as ([p s1] & u1 & u2 & E1 & Et & ->). apply bind_val in Et. destruct Et as (g & u3 & u4 & E2 & Et & ->). apply ret_val in Et. destruct Et as [Et ->]. cbn [fst snd] in *. assert (f' = g /\ s' = s1) as [-> ->] by (split; congruence).
        apply Forall_app in Ht. destruct Ht as [O1 _]. pose proof (fold_and l p (lists l H s p s1 u1 HI E1 O1 (proj1 (fold_plain l) Hp) Hl Hk (forall_of _ l Hd)) _ _ _ E2 pol W) as C. cbn [sweak]. destruct pol; cbn [both weakened] in C; [apply C|destruct C as [C|C]; [discriminate C|exact C]].
      - apply bind_val in Et. destruct Et as ([p s1] & u1 & u2 & E1 & Et & ->). apply bind_val in Et. destruct Et as (g & u3 & u4 & E2 & Et & ->). apply ret_val in Et. destruct Et as [Et ->]. cbn [fst snd] in *. assert (f' = g /\ s' = s1) as [-> ->] by (split; congruence).
        apply Forall_app in Ht. destruct Ht as [O1 _]. pose proof (fold_or l p (lists l H s p s1 u1 HI E1 O1 (proj1 (fold_plain l) Hp) Hl Hk (forall_of _ l Hd)) _ _ _ E2 pol W) as C. cbn [sweak]. destruct pol; cbn [negb both weakened] in C; [destruct C as [C|C]; [discriminate C|exact C]|apply C].
      - apply bind_val in Et. destruct Et as ([p s1] & u1 & u2 & E1 & Et & ->). apply bind_val in Et. destruct Et as (g & u3 & u4 & E2 & Et & ->). apply ret_val in Et. destruct Et as [Et ->]. cbn [fst snd] in *. assert (f' = g /\ s' = s1) as [-> ->] by (split; congruence).
        apply Forall_app in Ht. destruct Ht as [O1 _]. destruct (fold_xor l p (lists l H s p s1 u1 HI E1 O1 (proj1 (fold_plain l) Hp) Hl Hk (forall_of _ l Hd)) _ _ _ E2 (False, True)) as [C1 C2]; [cbn; discriminate|cbn; auto|]. cbn [sweak]. cbv zeta. destruct pol; auto.
      - apply bind_val in Et. destruct Et as ([p s1] & u1 & u2 & E1 & Et & ->). apply bind_val in Et. destruct Et as (x & u3 & u4 & E2 & Et & ->). apply ret_val in Et. destruct Et as [Et ->]. cbn [fst snd] in *. apply getF_val in E2. destruct E2 as [-> ->]. assert (f' = mk_not x /\ s' = s1) as [-> ->] by (split; congruence).
        apply Forall_app in Ht. destruct Ht as [O1 _]. apply wk_mk_not in W. cbn [sweak]. exact (IHt s x s1 u1 HI E1 O1 Hp Hl Hk Hd _ W).
      - (* => *) destruct Hp as [Pa Pb]. destruct Hd as [Da Db]. apply orb_false_iff in Hl. destruct Hl as [La Lb].
        apply bind_val in Et. destruct Et as (p & u1 & u2 & E1 & Et & ->). apply bind_val in Et. destruct Et as ([q s2] & u3 & u4 & E2 & Et & ->). apply Forall_app in Ht. destruct Ht as [O1 O2]. apply Forall_app in O2. destruct O2 as [O2 O3].
        apply bind_val in Et. destruct Et as (x & u5 & u6 & E3 & Et & ->). apply bind_val in Et. destruct Et as (y & u7 & u8 & E4 & Et & ->). apply ret_val in Et. destruct Et as [Et _]. cbn [fst snd] in *.
        apply getF_val in E3. destruct E3 as [Ep _]. apply getF_val in E4. destruct E4 as [Eq _]. assert (f' = mk_or (mk_not x) y /\ s' = s2) as [-> ->] by (split; congruence).
        destruct (pair_ok t1 t2 s p u1 q s2 u3 HI E1 E2 O1 O2 Pa Pb La Lb Hk) as (H1 & H2 & Hk1 & _). destruct p as [p s1]. cbn [fst snd] in *. subst p q.
        pose proof (fun pol => IHt1 s x s1 u1 HI E1 O1 Pa La Hk1 Da pol) as W1. pose proof (fun pol => IHt2 s1 y s2 u3 H1 E2 O2 Pb Lb Hk Db pol) as W2. pose proof (W1 true) as A1. pose proof (W1 false) as A2. pose proof (W2 true) as B1. pose proof (W2 false) as B2. cbv beta in A1, A2, B1, B2.
        apply wk_mk_or in W. cbn [sweak]. destruct pol; cbn [both negb] in W; rewrite wk_mk_not in W; cbn [negb] in W; tauto.
      - (* ite *) destruct Hp as (Pc & Pa & Pb). destruct Hd as (Dc & Da & Db). apply orb_false_iff in Hl. destruct Hl as [Hl Lb]. apply orb_false_iff in Hl. destruct Hl as [Lc La].
        apply bind_val in Et. destruct Et as (p & u1 & u2 & E1 & Et & ->). apply bind_val in Et. destruct Et as ([q s2] & u3 & u4 & E2 & Et & ->). apply bind_val in Et. destruct Et as ([r s3] & u5 & u6 & E3 & Et & ->). apply bind_val in Et. destruct Et as (g & u7 & u8 & E4 & Et & ->).
        apply Forall_app in Ht. destruct Ht as [O1 O2]. apply Forall_app in O2. destruct O2 as [O2 O3]. apply Forall_app in O3. destruct O3 as [O3 _]. cbn [fst snd] in *. apply getF_val in E4. destruct E4 as [Ep _].
        destruct q as [x|x], r as [y|y]; try discriminate Et; apply ret_val in Et; destruct Et as [Et _]; try discriminate Et.
        assert (f' = mk_and (mk_or (mk_not g) x) (mk_or g y) /\ s' = s3) as [-> ->] by (split; congruence).
        assert (Hk2 : Forall kept (d_notes s2)) by (apply (kept_one t3 s2 _ u5 E3); exact Hk).
        destruct (pair_ok t1 t2 s p u1 _ s2 u3 HI E1 E2 O1 O2 Pc Pa Lc La Hk2) as (H1 & H2 & Hk1 & _). destruct p as [p s1]. cbn [fst snd] in *. subst p.
        pose proof (fun pol => IHt1 s g s1 u1 HI E1 O1 Pc Lc Hk1 Dc pol) as W0. pose proof (fun pol => IHt2 s1 x s2 u3 H1 E2 O2 Pa La Hk2 Da pol) as W1. pose proof (fun pol => IHt3 s2 y s3 u5 H2 E3 O3 Pb Lb Hk Db pol) as W2.
        pose proof (W0 true) as A1. pose proof (W0 false) as A2. pose proof (W1 true) as B1. pose proof (W1 false) as B2. pose proof (W2 true) as C1. pose proof (W2 false) as C2. cbv beta in A1, A2, B1, B2, C1, C2.
        apply wk_mk_and in W. cbn [sweak]. destruct pol; cbn [both] in W; rewrite !wk_mk_or in W; cbn [both negb] in W; rewrite wk_mk_not in W; cbn [negb] in W; tauto.
      - exact I.
      - discriminate Hl.
      - exact I.
      - (* (+ t) *) apply bind_val in Et. destruct Et as ([p s1] & u1 & u2 & E1 & Et & ->). apply bind_val in Et. destruct Et as ([q s2] & u3 & u4 & E2 & Et & ->). cbn [fst snd] in *. destruct l as [|b l]; [|exact I].
        cbn [elabs] in E2. apply ret_val in E2. destruct E2 as [E2 ->]. assert (q = [] /\ s2 = s1) as [-> ->] by (split; congruence). apply ret_val in Et. destruct Et as [Et _]. assert (p = TmF f' /\ s' = s1) as [-> ->] by (split; congruence).
        apply Forall_app in Ht. destruct Ht as [O1 _]. cbn [existsb] in Hl. rewrite orb_false_r in Hl. cbn [sweak]. exact (IHt s f' s1 u1 HI E1 O1 (proj1 Hp) Hl Hk (proj1 Hd) pol W).
      - exact I.
      - exact I.
      - exact I.
    Qed.
  End Term.

  (** ** Scripts *)
  Notation cmd := (command fpow n alloc).
  Notation scr := (script fpow n alloc).
  Definition quiet (o : cop) : Prop := match o with OPush | OPop | OCheck _ => False | _ => True end.
  Lemma quiet_run k : Forall quiet k -> forall st, problems k st = [] /\ snd (run k st) = snd st /\ (forall f, In f (p_asserts (fst st)) -> In f (p_asserts (fst (run k st)))) /\
    forall f, In (OAssert f) k -> In f (p_asserts (fst (run k st))).
  Proof.
    assert (D : forall v p, p_asserts (declare v p) = p_asserts p) by (intros v0 p0; unfold declare; destruct (mem_var _ _); reflexivity).
    induction 1 as [|o k Ho Hk IH]; intros [p sv]; [repeat split; auto; intros f []|]. destruct (IH (p_step o (p, sv))) as (A1 & A2 & A3 & A4). cbn [run fold_left problems].
    destruct o; try destruct Ho; cbn [p_step fst snd] in *; cbn [p_asserts set_domain add_assert] in A3; rewrite ?D in A3; (split; [exact A1|]; split; [exact A2|]; split; [intros g Hg; apply A3; rewrite ?in_app_iff; auto|]; intros g [X|X]; [try discriminate X|apply A4, X]).
    assert (f = g) as -> by congruence. apply A3. apply in_app_iff. right. left. reflexivity.
  Qed.
  Lemma adds_refl s s' : d_ops s' = d_ops s -> adds s s' []. Proof. unfold adds. intros ->. now rewrite app_nil_r. Qed.
  Lemma adds_trans s s1 s2 k1 k2 : adds s s1 k1 -> adds s1 s2 k2 -> adds s s2 (k1 ++ k2). Proof. unfold adds. intros H1 ->. now rewrite H1, app_assoc. Qed.
  Lemma adds_emit o s : adds s (emit o s) [o]. Proof. unfold adds, emit. reflexivity. Qed.
  Lemma em_adds s s' : emL alloc s s' -> exists k, adds s s' k /\ Forall quiet k.
  Proof.
    intros (_ & k & Ek & Fk). exists (rev k). split; [unfold adds; rewrite Ek, rev_app_distr; reflexivity|]. apply Forall_rev. eapply Forall_impl; [|exact Fk]. intros o Ho. destruct o; try exact I; destruct Ho.
  Qed.
  Lemma decl_adds x so bd s v s' : declare_var alloc x so bd s = (v, s') -> exists k, adds s s' k /\ Forall quiet k.
  Proof.
    unfold declare_var, register. intros H. assert (s' = snd (v, s')) by reflexivity. rewrite <- H in H0. cbn [snd] in H0. subst s'.
    eexists [ONew _; _]. split; [unfold adds, emit; cbn [d_ops rev]; rewrite <- app_assoc; reflexivity|]. destruct bd as [[l u]|]; repeat constructor.
  Qed.
  Lemma cmd_adds c s s' tr : cmd c s = (Val s', tr) ->
    match c with
    | KPush k => adds s s' (repeat OPush k)
    | KPop k => adds s s' (repeat OPop k)
    | KCheck fuel => adds s s' [OCheck fuel]
    | KAssert t => exists k f s2 t2, adds s s' k /\ Forall quiet k /\ el t s = (Val (TmF f, s2), t2) /\ In (OAssert f) k
    | _ => exists k, adds s s' k /\ Forall quiet k
    end.
  Proof.
    assert (Em : forall k o s, adds s (emits k o s) (repeat o k)).
    { induction k as [|k IH]; intros o s0; cbn [emits repeat]; [apply adds_refl; reflexivity|]. apply (adds_trans s0 (emit o s0) _ [o] (repeat o k)); [apply adds_emit|apply IH]. }
    destruct c as [x so bd|f ps so t|t|k|k|fuel]; cbn [command]; intros E.
    - apply ret_val in E. destruct E as [-> _]. destruct (declare_var alloc x so bd s) as [v s1] eqn:Ed. apply (decl_adds _ _ _ _ _ _ Ed).
    - destruct (reg_params alloc ps s) as [vs s1] eqn:Er. destruct (reg_params_em alloc Hal ps s vs s1 Er) as [P1 _]. destruct (em_adds _ _ P1) as (k1 & K1 & Q1).
      apply bind_val in E. destruct E as (p & t1 & t2 & E1 & E & _). destruct (em_adds _ _ (elab_em fpow n alloc Hal t s1 p t1 E1)) as (k2 & K2 & Q2).
      assert (K3 : adds s (with_scope (d_scope s) (snd p)) (k1 ++ k2)) by (apply (adds_trans s s1 _ k1 k2 K1); exact K2). assert (Q3 : Forall quiet (k1 ++ k2)) by (apply Forall_app; auto).
      destruct vs as [|v0 vs].
      + destruct (declare_var alloc f so None _) as [v s3] eqn:Ed. destruct (decl_adds _ _ _ _ _ _ Ed) as (k4 & K4 & Q4). destruct (type_ok (fst p) (vty v)); cbn [negb] in E; [|discriminate E].
        assert (X : exists g, s' = assert_f g s3). { destruct (fst p) as [e|g]; [apply bind_val in E; destruct E as (g & ? & ? & _ & E & _); exists g|exists (mk_feq (FVar v) g)]; apply ret_val in E; apply E. }
        destruct X as (g & ->). exists (((k1 ++ k2) ++ k4) ++ [OAssert g]). split; [|apply Forall_app; split; [apply Forall_app; auto|repeat constructor]].
        apply (adds_trans s s3); [apply (adds_trans s _ s3 _ _ K3 K4)|apply adds_emit].
      + apply ret_val in E. destruct E as [-> _]. exists (k1 ++ k2). split; [exact K3|exact Q3].
    - apply bind_val in E. destruct E as ([tm s1] & t1 & t2 & E1 & E & _). apply bind_val in E. destruct E as (f & t3 & t4 & E2 & E & _). apply getF_val in E2. cbn [fst snd] in *. destruct E2 as [-> _]. apply ret_val in E. destruct E as [-> _].
      destruct (em_adds _ _ (elab_em fpow n alloc Hal t s _ t1 E1)) as (k1 & K1 & Q1). exists (k1 ++ [OAssert f]), f, s1, t1. split; [apply (adds_trans s s1 _ k1 _ K1), adds_emit|].
      split; [apply Forall_app; split; [exact Q1|repeat constructor]|]. split; [exact E1|apply in_app_iff; right; left; reflexivity].
    - destruct (Nat.eqb k 0); [discriminate E|]. apply ret_val in E. destruct E as [-> _]. apply Em.
    - destruct (Nat.eqb k 0); [discriminate E|]. apply ret_val in E. destruct E as [-> _]. apply Em.
    - apply ret_val in E. destruct E as [-> _]. apply adds_emit.
  Qed.
  Definition origin (i : item) (p : problem) : Prop := forall s1 t1 f s2 t2, scr (fst i) drv0 = (Val s1, t1) -> el (snd i) s1 = (Val (TmF f, s2), t2) -> In f (p_asserts p).
  Definition Orig (A : list item) (p : problem) : Prop := forall i, In i A -> origin i p.
  Lemma script_more pre c s t s1 t1 : scr pre drv0 = (Val s, t) -> cmd c s = (Val s1, t1) -> scr (pre ++ [c]) drv0 = (Val s1, t ++ t1).
  Proof.
    generalize drv0. revert s t. induction pre as [|a pre IH]; intros s t s0 E1 E2; cbn [script app] in *.
    - apply ret_val in E1. destruct E1 as [-> ->]. unfold bind. rewrite E2. cbn. now rewrite app_nil_r.
    - apply bind_val in E1. destruct E1 as (s2 & t2 & t3 & E1 & E3 & ->). unfold bind. rewrite E1. rewrite (IH _ _ _ E3 E2). now rewrite app_assoc.
  Qed.
  Lemma run_push k : forall p sv, run (repeat OPush k) (p, sv) = (p, repeat p k ++ sv) /\ problems (repeat OPush k) (p, sv) = [].
  Proof.
    induction k as [|k IH]; intros p sv; [split; reflexivity|]. cbn [repeat]. destruct (IH p (p :: sv)) as [H1 H2]. split; [|exact H2].
    change (run (repeat OPush k) (p, p :: sv) = (p, repeat p (S k) ++ sv)). rewrite H1. f_equal. change (p :: sv) with ([p] ++ sv). rewrite app_assoc, <- repeat_cons. reflexivity.
  Qed.
  Lemma run_pop k : forall p sv, run (repeat OPop k) (p, sv) = popn k p sv /\ problems (repeat OPop k) (p, sv) = [].
  Proof.
    induction k as [|k IH]; intros p sv; [split; destruct sv; reflexivity|]. cbn [repeat]. destruct sv as [|q sv]; [destruct (IH p []) as [H1 H2]|destruct (IH q sv) as [H1 H2]]; (split; [|exact H2]).
    - change (run (repeat OPop k) (p, []) = (p, [])). rewrite H1. destruct k; reflexivity.
    - exact H1.
  Qed.
  Lemma popn_rel {X Y} (P : X -> Y -> Prop) k : forall a b z w, P a b -> Forall2 P z w -> P (fst (popn k a z)) (fst (popn k b w)) /\ Forall2 P (snd (popn k a z)) (snd (popn k b w)).
  Proof. induction k as [|k IH]; intros a b z w H1 H2; [destruct z, w; cbn; auto|]. destruct H2; cbn [popn]; [cbn; auto|]. apply IH; auto. Qed.
  Lemma force cs : forall pre s0 t0 s tr A Z, scr pre drv0 = (Val s0, t0) -> scr cs s0 = (Val s, tr) -> Orig A (fst (run (rev (d_ops s0)) st0)) -> Forall2 Orig Z (snd (run (rev (d_ops s0)) st0)) ->
    exists k, adds s0 s k /\ Forall2 Orig (in_force cs pre A Z) (problems k (run (rev (d_ops s0)) st0)).
  Proof.
    induction cs as [|c cs IH]; intros pre s0 t0 s tr A Z E0 E HA HZ; cbn [script] in E.
    - apply ret_val in E. destruct E as [-> _]. exists []. split; [apply adds_refl; reflexivity|constructor].
    - apply bind_val in E. destruct E as (s1 & t1 & t2 & E1 & E & _). pose proof (script_more pre c s0 t0 s1 t1 E0 E1) as E0'. pose proof (cmd_adds c s0 s1 t1 E1) as C.
      assert (Q : forall k A', adds s0 s1 k -> Forall quiet k -> Orig A' (fst (run (rev (d_ops s1)) st0)) ->
        exists k', adds s0 s k' /\ Forall2 Orig (in_force cs (pre ++ [c]) A' Z) (problems k' (run (rev (d_ops s0)) st0))).
      { intros k A' K Q HA'. destruct (quiet_run k Q (run (rev (d_ops s0)) st0)) as (P1 & P2 & P3 & P4). destruct (IH (pre ++ [c]) s1 _ s t2 A' Z E0' E HA') as (k2 & K2 & F2).
        { rewrite K, run_app, P2. exact HZ. } exists (k ++ k2). split; [apply (adds_trans s0 s1 s _ _ K K2)|]. rewrite problems_app, P1. cbn [app]. rewrite <- run_app, <- K. exact F2. }
      assert (Qk : forall k, adds s0 s1 k -> Forall quiet k -> Orig A (fst (run (rev (d_ops s1)) st0))).
      { intros k K Qk. destruct (quiet_run k Qk (run (rev (d_ops s0)) st0)) as (_ & _ & P3 & _). rewrite K, run_app. intros i Hi a b g d e X Y. apply P3. exact (HA i Hi a b g d e X Y). }
      destruct c as [x so bd|f ps so t|t|k|k|fuel]; cbn [in_force].
      + destruct C as (k & K & Qt). apply (Q k A K Qt (Qk k K Qt)).
      + destruct C as (k & K & Qt). apply (Q k A K Qt (Qk k K Qt)).
      + destruct C as (k & f & s2 & t3 & K & Qt & Ef & Hf). apply (Q k _ K Qt). intros i [<-|Hi]; [|exact (Qk k K Qt i Hi)]. intros a b g d e X Y. cbn [fst snd] in *.
        assert (a = s0) as -> by congruence. assert (g = f) as -> by congruence. rewrite K, run_app. apply (quiet_run k Qt (run (rev (d_ops s0)) st0)). exact Hf.
      + destruct (run (rev (d_ops s0)) st0) as [p sv] eqn:Es. destruct (run_push k p sv) as [R1 R2]. destruct (IH (pre ++ [KPush k]) s1 _ s t2 A (repeat A k ++ Z) E0' E) as (k2 & K2 & F2).
        * rewrite C, run_app, Es, R1. exact HA.
        * rewrite C, run_app, Es, R1. cbn [snd] in *. apply Forall2_app; [|exact HZ]. clear - HA. induction k; cbn [repeat]; constructor; auto.
        * exists (repeat OPush k ++ k2). split; [apply (adds_trans s0 s1 s _ _ C K2)|]. rewrite problems_app, R2. cbn [app]. rewrite <- Es, <- run_app, <- C. exact F2.
      + destruct (run (rev (d_ops s0)) st0) as [p sv] eqn:Es. destruct (run_pop k p sv) as [R1 R2]. cbn [fst snd] in *. destruct (popn_rel Orig k A p Z sv HA HZ) as [G1 G2]. destruct (IH (pre ++ [KPop k]) s1 _ s t2 (fst (popn k A Z)) (snd (popn k A Z)) E0' E) as (k2 & K2 & F2).
        * rewrite C, run_app, Es, R1. exact G1.
        * rewrite C, run_app, Es, R1. exact G2.
        * exists (repeat OPop k ++ k2). split; [apply (adds_trans s0 s1 s _ _ C K2)|]. rewrite problems_app, R2. cbn [app]. rewrite <- Es, <- run_app, <- C. exact F2.
      + assert (Rc : run [OCheck fuel] (run (rev (d_ops s0)) st0) = run (rev (d_ops s0)) st0) by (destruct (run (rev (d_ops s0)) st0); reflexivity).
        destruct (IH (pre ++ [KCheck fuel]) s1 _ s t2 A Z E0' E) as (k2 & K2 & F2); [rewrite C, run_app, Rc; exact HA|rewrite C, run_app, Rc; exact HZ|].
        exists (OCheck fuel :: k2). split; [apply (adds_trans s0 s1 s [OCheck fuel] k2 C K2)|]. rewrite C, run_app, Rc in F2. cbn [problems]. constructor; [exact HA|].
        change (p_step (OCheck fuel) (run (rev (d_ops s0)) st0)) with (run [OCheck fuel] (run (rev (d_ops s0)) st0)). rewrite Rc. exact F2.
  Qed.
  Definition located (cs0 : list scmd) (A : list item) : Prop := forall i, In i A -> exists rest, cs0 = fst i ++ KAssert (snd i) :: rest.
  Lemma force_located cs0 cs : forall pre A Z, cs0 = pre ++ cs -> located cs0 A -> Forall (located cs0) Z -> Forall (located cs0) (in_force cs pre A Z).
  Proof.
    induction cs as [|c cs IH]; intros pre A Z E HA HZ; cbn [in_force]; [constructor|]. assert (E' : cs0 = (pre ++ [c]) ++ cs) by (rewrite <- app_assoc; exact E).
    destruct c as [x so bd|f ps so t|t|k|k|fuel]; auto.
    - apply IH; auto. intros i [<-|Hi]; [exists cs; exact E|auto].
    - apply IH; auto. apply Forall_app. split; [|exact HZ]. clear - HA. induction k; cbn [repeat]; constructor; auto.
    - assert (X : located cs0 (fst (popn k A Z)) /\ Forall (located cs0) (snd (popn k A Z))).
      { clear - HA HZ. revert A Z HA HZ. induction k as [|k IHk]; intros A Z HA HZ; [destruct Z; cbn; auto|]. destruct HZ; cbn [popn]; [cbn; auto|]. apply IHk; auto. }
      destruct X. apply IH; auto.
  Qed.
  Lemma defd_app V a b : forall s, s_defd M stdD V (a ++ b) s -> s_defd M stdD V a s /\ s_defd M stdD V b (s_run M stdD V a s).
  Proof. induction a as [|c a IH]; intros s H; [cbn in *; auto|]. destruct H as [H1 H2]. destruct (IH _ H2) as [H3 H4]. split; [split; auto|exact H4]. Qed.
  Lemma sorted_app V a b : forall k, s_sorted V (a ++ b) k -> s_sorted V a k.
  Proof. induction a as [|c a IH]; intros k H; [exact I|]. destruct c as [x so bd|f [|p ps] so t|t|m|m|fuel]; cbn [s_sorted app] in *; try (destruct H as [H1 H2]; split; auto; apply (IH _ H2)); apply (IH _ H). Qed.
  Lemma script_app a b : forall s s' tr, scr (a ++ b) s = (Val s', tr) -> exists s1 t1 t2, scr a s = (Val s1, t1) /\ scr b s1 = (Val s', t2) /\ tr = t1 ++ t2.
  Proof.
    induction a as [|c a IH]; intros s s' tr E; cbn [app script] in E; [exists s, [], tr; auto|]. apply bind_val in E. destruct E as (s1 & t1 & t2 & E1 & E2 & ->). destruct (IH _ _ _ E2) as (s2 & t3 & t4 & E3 & E4 & ->).
    exists s2, (t1 ++ t3), t4. split; [|split; [exact E4|apply app_assoc]]. cbn [script]. unfold bind. rewrite E1, E3. reflexivity.
  Qed.
  Lemma script_adds cs : forall s s' tr, scr cs s = (Val s', tr) -> exists k, adds s s' k.
  Proof.
    induction cs as [|c cs IH]; intros s s' tr E; cbn [script] in E; [apply ret_val in E; destruct E as [-> _]; exists []; apply adds_refl; reflexivity|].
    apply bind_val in E. destruct E as (s1 & t1 & t2 & E1 & E2 & _). destruct (IH _ _ _ E2) as (k2 & K2). pose proof (cmd_adds c s s1 t1 E1) as C.
    assert (X : exists k, adds s s1 k) by (destruct c; [destruct C as (k & K & _)|destruct C as (k & K & _)|destruct C as (k & f & ? & ? & K & _)| | |]; eauto). destruct X as (k & K). exists (k ++ k2). apply (adds_trans s s1); auto.
  Qed.
  Lemma reads_adds V s s' k rho : adds s s' k -> reads V (rev (d_ops s')) rho -> reads V (rev (d_ops s)) rho.
  Proof.
    intros K [W H]. split; [exact W|]. intros i v Hi. apply H. rewrite K, declared_app. rewrite nth_error_app1; [exact Hi|]. apply nth_error_Some. congruence.
  Qed.
End Front.
Lemma declared_step o p sv : forall v, declared p v -> match o with OPop => True | _ => declared (fst (p_step o (p, sv))) v end.
Proof.
  assert (D : forall v w p, declared p w -> declared (declare v p) w) by (intros v w q; unfold declared, declare; destruct (mem_var v _); cbn [p_doms]; auto; rewrite map_app, in_app_iff; auto).
  assert (Sd : forall v d w p, declared p w -> declared (set_domain v d p) w).
  { intros v d w q. unfold declared, set_domain. cbn [p_doms]. rewrite map_map. intros H. apply in_map_iff in H. destruct H as ([x e] & <- & H). apply in_map_iff. exists (x, e). split; [|exact H]. cbn [fst]. destruct (var_eqb v x) eqn:Ev; [apply var_eqb_eq in Ev; subst; reflexivity|reflexivity]. }
  intros v H. destruct o; cbn [p_step fst]; auto.
Qed.
Lemma adm_vars M D fold K n ops : forall news p sv, admissible M D fold K n ops news (p, sv) -> let P := fun p => forall f v, In f (p_asserts p) -> In v (fvF f) -> declared p v in
  P p -> Forall P sv -> Forall P (problems ops (p, sv)).
Proof.
  induction ops as [|o ops IH]; intros news p sv H P Hp Hs; [constructor|]. destruct H as [H1 H2].
  assert (D0 : forall v p, p_asserts (declare v p) = p_asserts p) by (intros v0 p0; unfold declare; destruct (mem_var _ _); reflexivity).
  assert (G : forall g v, In g (p_asserts p) -> In v (fvF g) -> match o with OPop => True | _ => declared (fst (p_step o (p, sv))) v end) by (intros g v Hg Hv; apply declared_step; exact (Hp g v Hg Hv)).
  destruct o; cbn [problems p_step fst] in *; try (apply (IH _ _ _ H2); auto; fail).
  - apply (IH _ _ _ H2); auto. intros g w Hg Hw. rewrite D0 in Hg. exact (G g w Hg Hw).
  - apply (IH _ _ _ H2); auto. intros g w Hg Hw. cbn [p_asserts set_domain] in Hg. rewrite D0 in Hg. exact (G g w Hg Hw).
  - apply (IH _ _ _ H2); auto. intros g w Hg Hw. cbn [p_asserts add_assert] in Hg. apply in_app_iff in Hg. destruct Hg as [Hg|[<-|[]]]; [exact (G g w Hg Hw)|].
    destruct H1 as [Wf _]. destruct (proj2 (wf_fv _ _ _) f Wf w Hw) as [X|X]; apply X.
  - destruct sv as [|q sv]; [apply (IH _ _ _ H2); auto|]. apply (IH _ _ _ H2); [exact (Forall_inv Hs)|exact (Forall_inv_tail Hs)].
  - constructor; [exact Hp|]. apply (IH _ _ _ H2); auto.
Qed.

Section Top.
  Variables (uf : nat -> list R -> R) (rc : dbl -> dbl -> R) (fpow : dbl -> dbl -> dbl) (n : nat) (alloc : nat -> nat).
  Notation M := (std uf rc).
  Notation ok := (Forall (exact M)).
  Hypothesis Hal : forall i j, i < j -> alloc i < alloc j.
  Variables (fold : expr -> expr -> option dbl) (mid : dbl -> dbl -> dbl) (precision : dbl) (K : eops) (n0 : nat).
  Hypothesis Pp : (0 < B2R precision)%R.
  Theorem script_weak cs s tr answers : script fpow n alloc cs drv0 = (Val s, tr) -> ok tr -> Forall plain_cmd cs -> Forall kept (d_notes s) ->
    admissible M stdD fold K n0 (rev (d_ops s)) [] (p_empty, []) ->
    Forall2 (fun q answer => delta_ok M stdD mid precision (fst q) answer) (checks (rev (d_ops s)) (p_empty, []) []) answers ->
    Forall2 (script_delta_ok fpow n alloc M stdD mid precision cs (rev (d_ops s))) (in_force cs [] [] []) answers.
  Proof.
    intros Es Ht Hp Hk Ad HD.
    destruct (force fpow n alloc Hal cs [] drv0 [] s tr [] [] eq_refl Es) as (k & Ka & F1); [intros i []|constructor|]. cbn in Ka. unfold adds in Ka. cbn in Ka. subst k. change (run (rev (d_ops drv0)) st0) with (p_empty, @nil problem) in F1.
    assert (P0 : Forall (fun p => forall f v, In f (p_asserts p) -> In v (fvF f) -> declared p v) (problems (rev (d_ops s)) (p_empty, []))) by (apply (adm_vars M stdD fold K n0 _ [] p_empty [] Ad); [intros f v []|constructor]).
    pose proof (force_located cs cs [] [] [] eq_refl (fun i (C : In i []) => match C with end) (Forall_nil _)) as L0.
    assert (HD' : Forall2 (fun q answer => delta_ok M stdD mid precision q answer) (problems (rev (d_ops s)) (p_empty, [])) answers).
    { rewrite <- (checks_problems (rev (d_ops s)) (p_empty, []) []). clear - HD. induction HD; constructor; auto. }
    assert (Step : forall A p r, Orig fpow n alloc A p -> located cs A -> (forall f v, In f (p_asserts p) -> In v (fvF f) -> declared p v) -> delta_ok M stdD mid precision p r ->
      script_delta_ok fpow n alloc M stdD mid precision cs (rev (d_ops s)) A r).
    { intros A p r HO HL HV Hd m Em. destruct (Hd m Em) as (B & B1 & B2 & B3 & B4 & B5). exists B. split; [exact B1|]. split; [exact B2|]. split; [intros v Hv; destruct (B4 v Hv) as (X & Y & _); auto|].
      intros V rho Rd Df So Hin i Hi Hl. destruct (HL i Hi) as (rest & Ec). pose proof (HO i Hi) as Ho. destruct i as [pre t]. cbn [fst snd] in *. subst cs.
      destruct (script_app fpow n alloc pre (KAssert t :: rest) drv0 s tr Es) as (s1 & t1 & t2 & E1 & E2 & ->). apply Forall_app in Ht. destruct Ht as [O1 O2]. apply Forall_app in Hp. destruct Hp as [P1 P2].
      cbn [script] in E2. apply bind_val in E2. destruct E2 as (s2 & t3 & t4 & E2 & E3 & ->). apply Forall_app in O2. destruct O2 as [O2 _]. pose proof (Forall_inv P2) as Pt. cbn [plain_cmd] in Pt.
      cbn [command] in E2. apply bind_val in E2. destruct E2 as ([tm s3] & u1 & u2 & E2 & E4 & ->). apply bind_val in E4. destruct E4 as (f & u3 & u4 & E4 & E5 & ->). apply getF_val in E4. cbn [fst snd] in E4, E5. destruct E4 as [-> _]. apply ret_val in E5. destruct E5 as [E5 _]. apply Forall_app in O2. destruct O2 as [O2 _].
      assert (Hk2 : Forall kept (d_notes s2)) by (apply (kept_mono s2 s (script_notes fpow n alloc Hal rest s2 s t4 E3) Hk)).
      assert (Hk3 : Forall kept (d_notes s3)) by (subst s2; exact Hk2).
      assert (Hk1 : Forall kept (d_notes s1)) by (apply (kept_one fpow n alloc t s1 _ u1 E2); exact Hk3).
      destruct (defd_app uf rc V pre _ _ Df) as [D1 [D2 _]]. pose proof (sorted_app V pre _ 0 So) as So1.
      destruct (script_inv uf rc fpow n alloc Hal V pre drv0 s1 t1 s_init [] E1 O1 P1 Hk1 D1 So1 (state0 uf rc alloc V)) as (SI1 & _ & _ & HR & _).
      assert (Rd1 : reads V (rev (d_ops s1)) rho).
      { destruct (script_adds fpow n alloc Hal rest s2 s t4 E3) as (k2 & K2). destruct (em_adds alloc _ _ (elab_em fpow n alloc Hal t s1 _ u1 E2)) as (k1 & K1 & _). cbn [snd] in K1. subst s2.
        apply (reads_adds V s1 s3 k1 rho K1), (reads_adds V s3 _ _ rho (adds_emit (OAssert f) s3)), (reads_adds V _ s k2 rho K2), Rd. }
      destruct (HR rho (proj1 Rd1) (proj2 Rd1)) as [R1 R2].
      specialize (Ho s1 t1 f s3 u1 E1 E2).
      assert (W : weakened M (B2R precision) (unguarded M stdD mid (B2R precision) B) true f rho) by (apply (B5 f Ho); left; intros v Hv; apply Hin, B3, (HV f v Ho Hv)).
      refine (term_weak uf rc fpow n alloc Hal (B2R precision) _ Pp s1 _ _ _ rho _ R1 R2 _ t s1 f s3 u1 _ E2 O2 Pt Hl Hk3 D2 true W).
      - intros a b x y q1 q1' v1 q2 q2' v2 (_ & X1 & X2) (_ & Y1 & Y2) Ea Eb Ex. exists x, y. split; [exists s1, t1, q1, q1', v1; auto|]. split; [exists s1, t1, q2, q2', v2; auto|exact Ex].
      - split; [exact SI1|split; reflexivity]. }
    clear - F1 P0 L0 HD' Step. revert answers P0 L0 HD'. induction F1 as [|A p As ps H1 H2 IH]; intros answers P0 L0 HD'; inversion HD'; subst; constructor.
    - apply (Step A p); auto; [exact (Forall_inv L0)|exact (Forall_inv P0)].
    - apply IH; auto; [exact (Forall_inv_tail P0)|exact (Forall_inv_tail L0)].
  Qed.
End Top.
