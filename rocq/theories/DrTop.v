(** * The verdicts printed for .dr files (C46) *)
From Coq Require Import ZArith Reals Lra Lia List Bool Arith.
From Flocq Require Import IEEE754.BinarySingleNaN.
From Verif Require Import Dbl DblProofs Syntax Sem SemProofs FormulaCons FormulaConsProofs Scoped Interval IntervalProofs IEval IEvalProofs MathConv Contr ContrProofs IbexConv IbexConvProofs Icp IcpProofs IcpPar Filter Theory TheoryUsed
  StdInterp SpecForm PredAbs ExprAlg SpecAlg ExprAlgProofs AlgTop SmtOcc SpecIte IteElim IteElimProofs Regular Wff Sat Context SpecCtx SpecModel SpecWeak CtxStruct SatSem CtxInv CtxTop CtxModelTop CtxDelta CtxDeltaInv
  Minim Smt2 Dr SpecDr DrProofs Api SpecApi ApiProofs ApiTop SpecFaith SpecDrMin DrFaith.
Import ListNotations.
Local Notation R := Rdefinitions.R.

Lemma in_fset g l : In g (fset l) <-> In g l. Proof. unfold fset. rewrite finserts_In. cbn. tauto. Qed.
Section Weak.
  Variables (M : interp) (delta : R) (exc : expr -> expr -> env -> Prop) (rho : env).
  Notation wk := (fun pol f => weakened M delta exc pol f rho).
  Lemma wk_and pol fs : wk pol (FAnd fs) <-> if pol then forall g, In g fs -> wk true g else exists g, In g fs /\ wk false g.
  Proof. destruct pol; cbn [weakened]; [apply fold_and_all|]. induction fs as [|g fs IH]; cbn [fold_right]; [split; [intros []|intros (g & [] & _)]|]. rewrite IH.
    split; [intros [H|(h & X & Y)]; [exists g; split; [left; reflexivity|exact H]|exists h; split; [right; exact X|exact Y]]|intros (h & [<-|X] & Y); [left; exact Y|right; exists h; auto]]. Qed.
  Lemma wk_or pol fs : wk pol (FOr fs) <-> if pol then exists g, In g fs /\ wk true g else forall g, In g fs -> wk false g.
  Proof. destruct pol; cbn [weakened]; [|apply fold_and_all]. induction fs as [|g fs IH]; cbn [fold_right]; [split; [intros []|intros (g & [] & _)]|]. rewrite IH.
    split; [intros [H|(h & X & Y)]; [exists g; split; [left; reflexivity|exact H]|exists h; split; [right; exact X|exact Y]]|intros (h & [<-|X] & Y); [left; exact Y|right; exists h; auto]]. Qed.
  Lemma wk_mk_not pol f : wk pol (mk_not f) <-> wk (negb pol) f.
  Proof. destruct f; cbn [mk_not]; try apply iff_refl; [destruct pol; cbn; split; congruence|destruct pol; cbn; split; congruence|]. cbn [weakened]. rewrite negb_involutive. apply iff_refl. Qed.
  (** [P pol]: both for the polarity of a conjunction, one of them for the other *)
  Definition both (pol : bool) (P Q : Prop) : Prop := if pol then P /\ Q else P \/ Q.
  Lemma wk_flat_and pol f s : wk pol (FAnd (merge_conj f s)) <-> both pol (wk pol f) (wk pol (FAnd s)).
  Proof.
    assert (G : forall l, wk pol (FAnd (finserts l s)) <-> both pol (wk pol (FAnd l)) (wk pol (FAnd s))).
    { intros l. destruct pol; cbn [both negb]; rewrite !wk_and.
      - split; [intros H; split; intros g Hg; apply H, finserts_In; auto|intros [H1 H2] g Hg; apply finserts_In in Hg; destruct Hg; auto].
      - split; [intros (g & Hg & H); apply finserts_In in Hg; destruct Hg; [left|right]; eauto|intros [(g & Hg & H)|(g & Hg & H)]; exists g; (split; [apply finserts_In; auto|exact H])]. }
    assert (F : wk pol (FAnd (finsert f s)) <-> both pol (wk pol f) (wk pol (FAnd s))).
    { destruct pol; cbn [both negb]; rewrite !wk_and.
      - split; [intros H; split; [apply H, finsert_In; auto|intros g Hg; apply H, finsert_In; auto]|intros [H1 H2] g Hg; apply finsert_In in Hg; destruct Hg as [->|]; auto].
      - split; [intros (g & Hg & H); apply finsert_In in Hg; destruct Hg as [->|Hg]; [left; exact H|right; eauto]|intros [H|(g & Hg & H)]; [exists f|exists g]; (split; [apply finsert_In; auto|exact H])]. }
    unfold merge_conj. destruct f; try exact F. apply G.
  Qed.
  Lemma wk_flat_or pol f s : wk pol (FOr (merge_disj f s)) <-> both (negb pol) (wk pol f) (wk pol (FOr s)).
  Proof.
    assert (G : forall l, wk pol (FOr (finserts l s)) <-> both (negb pol) (wk pol (FOr l)) (wk pol (FOr s))).
    { intros l. destruct pol; cbn [both negb]; rewrite !wk_or.
      - split; [intros (g & Hg & H); apply finserts_In in Hg; destruct Hg; [left|right]; eauto|intros [(g & Hg & H)|(g & Hg & H)]; exists g; (split; [apply finserts_In; auto|exact H])].
      - split; [intros H; split; intros g Hg; apply H, finserts_In; auto|intros [H1 H2] g Hg; apply finserts_In in Hg; destruct Hg; auto]. }
    assert (F : wk pol (FOr (finsert f s)) <-> both (negb pol) (wk pol f) (wk pol (FOr s))).
    { destruct pol; cbn [both negb]; rewrite !wk_or.
      - split; [intros (g & Hg & H); apply finsert_In in Hg; destruct Hg as [->|Hg]; [left; exact H|right; eauto]|intros [H|(g & Hg & H)]; [exists f|exists g]; (split; [apply finsert_In; auto|exact H])].
      - split; [intros H; split; [apply H, finsert_In; auto|intros g Hg; apply H, finsert_In; auto]|intros [H1 H2] g Hg; apply finsert_In in Hg; destruct Hg as [->|]; auto]. }
    unfold merge_disj. destruct f; try exact F. apply G.
  Qed.
  Lemma wk_true pol : wk pol FTrue <-> pol = true. Proof. apply iff_refl. Qed.
  Lemma wk_false pol : wk pol FFalse <-> pol = false. Proof. apply iff_refl. Qed.
  Lemma both_same pol P : both pol P P <-> P. Proof. destruct pol; cbn; tauto. Qed.
  Lemma both_comm pol P Q : both pol P Q <-> both pol Q P. Proof. destruct pol; cbn; tauto. Qed.
  Lemma wk_mk_and pol f g : wk pol (mk_and f g) <-> both pol (wk pol f) (wk pol g).
  Proof.
    unfold mk_and.
    destruct (is_false f) eqn:E1; [apply is_false_eq in E1; subst; destruct pol; cbn [both negb]; rewrite ?wk_false, ?wk_true; intuition congruence|].
    destruct (is_false g) eqn:E2; [apply is_false_eq in E2; subst; destruct pol; cbn [both negb]; rewrite ?wk_false, ?wk_true; intuition congruence|].
    destruct (is_true f) eqn:E3; [apply is_true_eq in E3; subst; destruct pol; cbn [both negb]; rewrite ?wk_false, ?wk_true; intuition congruence|].
    destruct (is_true g) eqn:E4; [apply is_true_eq in E4; subst; destruct pol; cbn [both negb]; rewrite ?wk_false, ?wk_true; intuition congruence|].
    destruct (formula_eqb f g) eqn:E5; [apply formula_eqb_eq in E5; subst; rewrite both_same; apply iff_refl|].
    assert (D : wk pol (FAnd (fset [f; g])) <-> both pol (wk pol f) (wk pol g)).
    { rewrite wk_and. destruct pol; cbn [both].
      - split; [intros H; split; apply H, in_fset; cbn; auto|intros [H1 H2] h Hh; rewrite in_fset in Hh; destruct Hh as [<-|[<-|[]]]; auto].
      - split; [intros (h & Hh & H); rewrite in_fset in Hh; destruct Hh as [<-|[<-|[]]]; auto|intros [H|H]; [exists f|exists g]; (split; [apply in_fset; cbn; auto|exact H])]. }
    destruct f; destruct g; try exact D; rewrite wk_flat_and; first [exact (iff_refl _)|exact (both_comm _ _ _)].
  Qed.
  Lemma wk_mk_or pol f g : wk pol (mk_or f g) <-> both (negb pol) (wk pol f) (wk pol g).
  Proof.
    unfold mk_or.
    destruct (is_true f) eqn:E3; [apply is_true_eq in E3; subst; destruct pol; cbn [both negb]; rewrite ?wk_false, ?wk_true; intuition congruence|].
    destruct (is_true g) eqn:E4; [apply is_true_eq in E4; subst; destruct pol; cbn [both negb]; rewrite ?wk_false, ?wk_true; intuition congruence|].
    destruct (is_false f) eqn:E1; [apply is_false_eq in E1; subst; destruct pol; cbn [both negb]; rewrite ?wk_false, ?wk_true; intuition congruence|].
    destruct (is_false g) eqn:E2; [apply is_false_eq in E2; subst; destruct pol; cbn [both negb]; rewrite ?wk_false, ?wk_true; intuition congruence|].
    destruct (formula_eqb f g) eqn:E5; [apply formula_eqb_eq in E5; subst; rewrite both_same; apply iff_refl|].
    assert (D : wk pol (FOr (fset [f; g])) <-> both (negb pol) (wk pol f) (wk pol g)).
    { rewrite wk_or. destruct pol; cbn [both negb].
      - split; [intros (h & Hh & H); rewrite in_fset in Hh; destruct Hh as [<-|[<-|[]]]; auto|intros [H|H]; [exists f|exists g]; (split; [apply in_fset; cbn; auto|exact H])].
      - split; [intros H; split; apply H, in_fset; cbn; auto|intros [H1 H2] h Hh; rewrite in_fset in Hh; destruct Hh as [<-|[<-|[]]]; auto]. }
    destruct f; destruct g; try exact D; rewrite wk_flat_or; first [exact (iff_refl _)|exact (both_comm _ _ _)].
  Qed.
End Weak.

Lemma rel_weak delta o x y : (0 < delta)%R -> relR o x y -> weakR delta o x y.
Proof. intros P. destruct o; cbn [relR weakR]; intros H; try lra; auto. subst. rewrite Rminus_diag_eq by reflexivity. rewrite Rabs_R0. lra. Qed.
Lemma rel_neg o x y : ~ relR o x y -> relR (relop_neg o) x y.
Proof. destruct o; cbn [relR relop_neg]; intros H; lra. Qed.
Section Form.
  Variables (uf : nat -> list R -> R) (rc : dbl -> dbl -> R) (fpow : dbl -> dbl -> dbl) (n : nat).
  Notation M := (std uf rc).
  Variables (delta : R) (exc : expr -> expr -> env -> Prop).
  Hypothesis Pd : (0 < delta)%R.
  Lemma form_weak evl ds nx r tr : dr_decls fpow n evl ds [] nx = (Val r, tr) -> let sc := fst r in (forall V rho, dr_reads ds nx V rho -> sc_reads sc V rho) -> forall f p t, dr_form fpow n sc f = (Val p, t) -> Forall (exact M) t ->
    forall V rho, dr_reads ds nx V rho -> fdef M stdD V f -> forall pol, weakened M delta exc pol p rho -> dweak M V delta (excused fpow n evl exc ds nx rho) pol f.
  Proof.
    intros Hr sc Hs. induction f as [o a b|f IHf g IHg|f IHf g IHg|f IHf g IHg|f IHf]; intros p t E Ht V rho HR HD pol W; cbn [dr_form] in E;
      apply bind_val in E; destruct E as (p1 & t1 & t2 & E1 & E & ->); apply Forall_app in Ht; destruct Ht as [O1 O2];
      try (apply bind_val in E; destruct E as (p2 & t3 & t4 & E2 & E & ->); apply Forall_app in O2; destruct O2 as [O2 O3]).
    - destruct HD as [Da Db]. assert (Ma : means_exp M stdD ds nx a p1) by (intros V' r' HR' D'; apply (exp_ok uf rc fpow n sc a p1 t1 E1 O1 V' r' (Hs _ _ HR') D')).
      assert (Mb : means_exp M stdD ds nx b p2) by (intros V' r' HR' D'; apply (exp_ok uf rc fpow n sc b p2 t3 E2 O2 V' r' (Hs _ _ HR') D')).
      destruct (Ma V rho HR Da) as [X1 Y1]. destruct (Mb V rho HR Db) as [X2 Y2].
      destruct (mk_relm_ev uf rc fpow n (drel_op o) p1 p2 rho p t4 E O3 X1 X2) as [X3 Y3]. rewrite Y1, Y2 in Y3. cbn [dweak].
      unfold mk_relm in E. apply bind_val in E. destruct E as (e & t5 & t6 & _ & E & _).
      assert (C : p = FRel (drel_op o) p1 p2 \/ p = FTrue \/ p = FFalse).
      { destruct e as [c| | | | | | | |]; try (apply ret_val in E; destruct E as [-> _]; left; reflexivity). destruct (is_nan c); [apply ret_val in E; destruct E as [-> _]; left; reflexivity|].
        apply bind_val in E. destruct E as (u & t7 & t8 & _ & E & _). apply ret_val in E. destruct E as [-> _]. right. destruct (relop_on (drel_op o) c); auto. }
      destruct C as [->|[->| ->]].
      + cbn [weakened] in W. rewrite Y1, Y2 in W. destruct W as [W|W]; [left; exact W|right; exists r, tr, p1, t1, p2, t3; auto].
      + cbn [weakened] in W. subst pol. left. apply (rel_weak delta _ _ _ Pd). apply Y3. exact I.
      + cbn [weakened] in W. subst pol. left. apply (rel_weak delta _ _ _ Pd), rel_neg. intros C. apply Y3 in C. exact C.
    - destruct HD as [Da Db]. apply ret_val in E. destruct E as [-> ->]. apply wk_mk_and in W. cbn [dweak]. destruct pol; cbn [both] in W; [destruct W as [W1 W2]; split; eauto|destruct W as [W|W]; eauto].
    - destruct HD as [Da Db]. apply ret_val in E. destruct E as [-> ->]. apply wk_mk_or in W. cbn [dweak]. destruct pol; cbn [both negb] in W; [destruct W as [W|W]; eauto|destruct W as [W1 W2]; split; eauto].
    - destruct HD as [Da Db]. apply ret_val in E. destruct E as [-> ->]. apply wk_mk_or in W. cbn [dweak]. destruct pol; cbn [both negb] in W; rewrite wk_mk_not in W; cbn [negb] in W; [destruct W as [W|W]; eauto|destruct W as [W1 W2]; split; eauto].
    - apply ret_val in E. destruct E as [-> ->]. apply wk_mk_not in W. cbn [dweak]. eauto.
  Qed.
End Form.

Section Verdicts.
  Variables (uf : nat -> list R -> R) (rc : dbl -> dbl -> R) (fpow : dbl -> dbl -> dbl) (n : nat) (evl : expr -> option dbl).
  Notation M := (std uf rc).
  Lemma dr_ints fold d nx bs ops fs gs wl fuel : dr_built uf rc evl fold d nx bs ops fs gs -> ints_ok wl (ops ++ [OCheck fuel]).
  Proof.
    intros B. rewrite (db_ops _ _ _ _ _ _ _ _ _ _ B). intros _ o v Ho Eo. assert (X : forall bs nx, In o (decl_ops bs nx) -> is_int_type (vty v) = false).
    { clear - Eo. induction bs as [|[l u] bs IH]; intros nx Ho; [destruct Ho|]. destruct Ho as [<-|[<-|Ho]]; [destruct Eo|subst v; reflexivity|eauto]. }
    apply in_app_iff in Ho. destruct Ho as [Ho|[<-|[]]]; [|destruct Eo]. apply in_app_iff in Ho. destruct Ho as [Ho|Ho]; [eauto|]. apply in_map_iff in Ho. destruct Ho as (f & <- & _). destruct Eo.
  Qed.
  Lemma delta_check fold ops fuel : forall st, delta_ops fold ops st -> delta_ops fold (ops ++ [OCheck fuel]) st.
  Proof. induction ops as [|o ops IH]; intros st H; [split; exact I|]. destruct H as [H1 H2]. split; [exact H1|]. exact (IH _ H2). Qed.
End Verdicts.

Theorem dr_file_unsat : forall uf rc fpow n evl fold esub eneg m A L fa term pn mid precision use_worklist k left_first K pico eval d models nx fuel t, let M := std uf rc in
  rc_ok M -> mid_ok mid -> ibex_ok M stdD L -> eneg_faithful M stdD eneg -> sqrt_ok M stdD -> ia_ok M stdD A -> esub_ok M stdD esub -> pico_ok pico -> folds fpow n fold ->
  dr_cost d = [] -> dr_lits d -> dr_run fpow n evl fold K pico (solver_seq esub eneg m (ibex_oracles L esub eneg m fa) term pn (rel_eval A esub) mid precision use_worklist k left_first) mid precision eval d models nx fuel = (Val (Some [OutUnsat]), t) ->
  Forall (exact M) t ->
  exists bs, Forall2 (fun dd b => bound_is M stdD evl (dr_vars d) nx (dd_lb dd) (fst b) /\ bound_is M stdD evl (dr_vars d) nx (dr_ub dd) (snd b)) (dr_vars d) bs /\
  ~ exists V, dr_solution M stdD d bs V /\ forall rho ops gs t' f, dr_reads (dr_vars d) nx V rho -> dr_calls fpow n evl d nx = (Val (ops, gs), t') -> In (OAssert f) ops -> regular M stdD f rho.
Proof.
  intros uf rc fpow n evl fold esub eneg m A L fa term pn mid precision wl k lf K pico eval d models nx fuel t M RC Hm HL HN HS HA HD HP FO Hc Li E Ht.
  apply (dr_unsat_printed uf rc fpow n evl fold esub eneg m A L fa term pn mid precision wl k lf K pico eval d models nx fuel t RC Hm HL HN HS HA HD HP Hc E Ht).
  intros ops gs t' E'. destruct (solve_plain _ _ _ _ _ _ _ _ _ _ _ _ _ _ _ _ Hc E) as (ops0 & c & r & E0 & _). assert (ops0 = ops /\ gs = [] /\ t' = t) as (-> & -> & ->) by (repeat split; congruence).
  destruct (built uf rc fpow n evl fold d nx ops [] t FO Li E0 Ht) as (bs & fs & B). exact (dr_adm uf rc evl fold K d nx bs ops fs [] B [OCheck fuel] (or_intror (ex_intro _ fuel eq_refl))).
Qed.
Theorem dr_file_delta : forall uf rc fpow n evl fold esub eneg m A L fa term pn mid precision use_worklist k left_first K pico eval d models nx fuel rest t, let M := std uf rc in
  rc_ok M -> mid_ok mid -> ibex_ok M stdD L -> eneg_faithful M stdD eneg -> sqrt_ok M stdD -> ia_ok M stdD A -> esub_ok M stdD esub -> pico_ok pico -> folds fpow n fold ->
  is_finite precision = true -> (0 < B2R precision)%R -> dr_cost d = [] -> dr_vars d <> [] -> dr_lits d ->
  dr_run fpow n evl fold K pico (solver_seq esub eneg m (ibex_oracles L esub eneg m fa) term pn (rel_eval A esub) mid precision use_worklist k left_first) mid precision eval d models nx fuel =
    (Val (Some (OutDelta precision :: rest)), t) ->
  Forall (exact M) t ->
  exists b B, rest = (if models then [OutModel b] else []) /\ box_ok B /\ b_empty B = false /\
    (forall v, In v (bvars b) -> (exists x, imem x (b_getv B v)) -> tight_ok precision (vty v) (b_getv B v) (b_getv b v)) /\
    forall V rho, dr_reads (dr_vars d) nx V rho -> (forall i, i < length (dr_vars d) -> In (dvar nx i) (bvars B) /\ imem (rho (dvar nx i)) (b_getv B (dvar nx i))) ->
      forall f, In f (dr_ctr d) -> fdef M stdD V f ->
        dweak M V (B2R precision) (excused fpow n evl (unguarded M stdD mid (B2R precision) B) (dr_vars d) nx rho) true f.
Proof.
  intros uf rc fpow n evl fold esub eneg m A L fa term pn mid precision wl k lf K pico eval d models nx fuel rest t M RC Hm HL HN HS HA HD HP FO Fp Pp Hc Hv Li E Ht.
  destruct (solve_ok _ _ _ _ _ _ _ _ _ _ _ _ _ _ _ _ E) as (ops & gs & t0 & c & mops & c' & r & t1 & E0 & _ & Em & Et & E1 & El). subst t. apply Forall_app in Ht. destruct Ht as [H0 H1].
  destruct (built uf rc fpow n evl fold d nx ops gs t0 FO Li E0 H0) as (bs & fs & B).
  assert (gs = []) by (pose proof (f2_len _ _ _ (db_gs _ _ _ _ _ _ _ _ _ _ B)) as X; rewrite Hc in X; destruct gs; [reflexivity|discriminate X]). subst gs. destruct Em as [-> ->]. cbn [app] in E1.
  destruct r as [b|]; [|unfold dr_print in El; discriminate El]. unfold dr_print in El. cbn [map] in El. assert (Er : rest = if models then [OutModel b] else []) by congruence.
  pose proof (delta_top M stdD fold mid precision wl RC Hm K pico nx _ HP (T_seq M stdD fold esub eneg m A L fa term pn mid precision wl RC Hm HL HN HS HA HD k lf)
      (T_box_seq M stdD fold esub eneg m A L fa term pn mid precision wl RC Hm HL HN HS HA HD k lf)
      (T_weak_seq M stdD fold esub eneg m A L fa term pn mid precision wl RC Hm HL HN HS HA HD Fp Pp k lf) Fp Pp _ c' _ E1
    (dr_adm uf rc evl fold K d nx bs ops fs [] B [OCheck fuel] (or_intror (ex_intro _ fuel eq_refl))) (dr_ints uf rc evl fold d nx bs ops fs [] wl fuel B) (delta_check fold ops fuel _ (dr_delta uf rc evl fold d nx bs ops fs [] B Hv))) as U.
  pose proof (checks_problems (ops ++ [OCheck fuel]) (p_empty, []) []) as Cp. rewrite (db_ops _ _ _ _ _ _ _ _ _ _ B) in Cp at 2. rewrite (problem_of uf rc fpow n) in Cp.
  destruct (checks _ _ _) as [|q [|? ?]]; cbn [map] in Cp; try discriminate Cp. assert (Cq : fst q = {| p_doms := decl_doms bs nx; p_asserts := fs |}) by congruence. inversion U as [|? ? ? ? Hd _]; subst.
  destruct (Hd b eq_refl) as (Bx & B1 & B2 & B3 & B4 & B5). exists b, Bx. split; [reflexivity|]. split; [exact B1|]. split; [exact B2|]. split; [intros v Hb Hx; apply (proj2 (B4 v Hb)); exact Hx|].
  intros V rho HR Hin f Hf Df. rewrite Cq in B5. cbn [p_asserts] in B5.
  pose proof E0 as E0'. unfold dr_calls in E0'.
  apply bind_val in E0'; destruct E0' as (r & s1 & s2 & F1 & E0' & ->); apply Forall_app in H0; destruct H0 as [O1 O2].
  apply bind_val in E0'; destruct E0' as (fs' & s3 & s4 & F2 & E0' & ->); apply Forall_app in O2; destruct O2 as [O2 O3].
  apply bind_val in E0'; destruct E0' as (gs' & s5 & s6 & F3 & E0' & ->). apply ret_val in E0'. destruct E0' as [E0' ->].
  destruct (decls_ok uf rc fpow n evl (dr_vars d) (dr_vars d) [] nx r s1 eq_refl) as (G1 & bs' & G2 & G3); auto. { cbn [length]. rewrite Nat.add_0_r. exact F1. }
  assert (Sc : forall V rho, dr_reads (dr_vars d) nx V rho -> sc_reads (fst r) V rho).
  { intros V0 r0 H. rewrite G1. apply (sc_reads_of (dr_vars d) []). now rewrite app_nil_r. }
  destruct (f2_left _ _ _ _ (collect_ok uf rc _ _ _ _ F2 O2) Hf) as (g & Hg & t' & X & Y).
  apply (form_weak uf rc fpow n (B2R precision) (unguarded M stdD mid (B2R precision) Bx) Pp evl (dr_vars d) nx r s1 F1 Sc f g t' X Y V rho HR Df true).
  assert (Ig : In g fs).
  { assert (Z : In (OAssert g) ops) by (assert (Eo : ops = snd r ++ map OAssert fs') by congruence; rewrite Eo; apply in_app_iff; right; now apply in_map).
    rewrite (db_ops _ _ _ _ _ _ _ _ _ _ B) in Z. apply in_app_iff in Z. destruct Z as [Z|Z]; [|apply in_map_iff in Z; destruct Z as (g0 & Z1 & Z2); assert (g0 = g) by congruence; now subst].
    exfalso. clear - Z. revert nx Z. induction bs as [|[l u] bs IH]; intros nx Z; [destruct Z|]. cbn [decl_ops] in Z. destruct Z as [Z|[Z|Z]]; try discriminate. exact (IH _ Z). }
  apply (B5 g Ig rho). left. intros v Hvf. destruct (db_gF _ _ _ _ _ _ _ _ _ _ B g Ig) as [_ [Oc _]]. destruct (proj2 (occ_fv _) _ _ Oc v Hvf) as [(i & Li' & ->) _]. apply Hin. rewrite (f2_len _ _ _ (db_bs _ _ _ _ _ _ _ _ _ _ B)). exact Li'.
Qed.
