(** * Delta-sat answers of the theory solver and of the context (behind C02) *)
From Coq Require Import ZArith Reals Lra Lia List Bool Arith Classical.
From Flocq Require Import IEEE754.BinarySingleNaN.
From Verif Require Import Dbl DblProofs Syntax Sem SemProofs FormulaCons FormulaConsProofs SpecForm Nnf NnfProofs PredAbs PredAbsProofs Tseitin TseitinProofs ConsUnfolded
  Scoped SpecScoped ScopedProofs Interval IntervalProofs MathConv MathConvProofs IEval IEvalProofs Contr ContrProofs IbexConv IbexConvProofs Icp IcpProofs IcpTop IcpPar IcpParProofs IcpParTop Filter FilterProofs Theory ExplainProofs TheoryProofs TheoryUsed TheoryTop SpecWeak TheorySat
  IteElim SpecIte IteElimProofs Regular RegularProofs Wff WffProofs Sat Context CtxStruct SatSem CdclProofs SpecCtx CtxBox CtxSem CtxRun CtxInv CtxTop SpecModel CtxModel CtxSat CtxHom CtxDom.
Import ListNotations.
Local Notation R := Rdefinitions.R.

Section W.
  Variables (M : interp) (delta : R).
  Lemma weak_weakened exc f : forall pol rho, weak M delta pol f rho -> weakened M delta exc pol f rho.
  Proof.
    induction f as [| |v|o a c|gs IH|gs IH|g IH|vs g IH] using formula_ind'; intros pol rho H; cbn [weak weakened] in *; auto.
    - destruct pol; induction IH as [|g gs Hg _ IHl]; cbn [fold_right] in *; intuition.
    - destruct pol; induction IH as [|g gs Hg _ IHl]; cbn [fold_right] in *; intuition.
    - destruct pol; [auto|]. destruct H as (r & A & B & C). exists r. auto.
  Qed.
  Lemma weakened_mono (exc exc' : expr -> expr -> env -> Prop) f : (forall x y rho, exc x y rho -> exc' x y rho) -> forall pol rho, weakened M delta exc pol f rho -> weakened M delta exc' pol f rho.
  Proof.
    intros He. induction f as [| |v|o a c|gs IH|gs IH|g IH|vs g IH] using formula_ind'; intros pol rho H; cbn [weakened] in *; auto.
    - destruct H; auto.
    - destruct pol; induction IH as [|g gs Hg _ IHl]; cbn [fold_right] in *; intuition.
    - destruct pol; induction IH as [|g gs Hg _ IHl]; cbn [fold_right] in *; intuition.
    - destruct pol; [auto|]. destruct H as (r & A & B & C). exists r. auto.
  Qed.
  Lemma lit_weakened exc f o a b rho pol : lit_op f = Some o -> lit_sides f = Some (a, b) ->
    (weakened M delta exc pol f rho <-> weakR delta (if pol then o else relop_neg o) (evalE M a rho) (evalE M b rho) \/ exc a b rho).
  Proof.
    revert o pol. induction f using formula_ind'; cbn [lit_op lit_sides]; intros o' pol E1 E2; try discriminate.
    - injection E1 as <-. injection E2 as <- <-. cbn. tauto.
    - destruct (lit_op f) as [o1|]; [|discriminate]. injection E1 as <-. cbn [weakened]. rewrite (IHf _ (negb pol) eq_refl E2). destruct pol; cbn [negb]; rewrite ?relop_neg_invol; tauto.
  Qed.
  Lemma relR_weak o x y : (0 < delta)%R -> relR o x y -> weakR delta o x y.
  Proof. intros P H. destruct o; cbn in *; try lra. subst. rewrite Rminus_diag_eq by reflexivity. rewrite Rabs_R0. lra. Qed.
  Lemma bounds_lit f o a b : lit_op f = Some o -> lit_sides f = Some (a, b) -> bounds_small delta (FRel RGt a b) -> bounds_small delta f.
  Proof.
    revert o. induction f using formula_ind'; cbn [lit_op lit_sides]; intros o' E1 E2; try discriminate.
    - injection E2 as <- <-. unfold bounds_small. cbn [bound_lit]. destruct a0, b0; auto.
    - destruct (lit_op f) as [o1|]; [|discriminate]. intros H. exact (IHf _ eq_refl E2 H).
  Qed.
  Lemma neq_lit f o : lit_op f = Some o -> forall pol, is_neq_pol f pol = true -> (if pol then o else relop_neg o) = RNeq.
  Proof.
    revert o. induction f using formula_ind'; cbn [lit_op is_neq_pol]; intros o' E1 pol Hn; try discriminate.
    - injection E1 as <-. destruct o, pol; cbn in *; try discriminate; reflexivity.
    - destruct (lit_op f) as [o1|]; [|discriminate]. injection E1 as <-. specialize (IHf _ eq_refl _ Hn). destruct pol; cbn [negb] in *; [exact IHf|]. rewrite relop_neg_invol. exact IHf.
  Qed.
End W.

Section Top.
  Variables (M : interp) (D : pdom) (fold : expr -> expr -> option dbl).
  Variables (esub : expr -> expr -> expr) (eneg : expr -> expr) (m : nat) (A : iarith) (L : ibex) (fa : formula -> box -> option (list ival)) (term : list ival -> list ival -> bool) (pn : nat).
  Variables (mid : dbl -> dbl -> dbl) (precision : dbl) (wl : bool).
  Hypothesis RC : rc_ok M.
  Hypothesis Hm : mid_ok mid.
  Hypothesis HL : ibex_ok M D L.
  Hypothesis HN : eneg_faithful M D eneg.
  Hypothesis HS : sqrt_ok M D.
  Hypothesis HA : ia_ok M D A.
  Hypothesis HD : esub_ok M D esub.
  Hypothesis Fp : is_finite precision = true.
  Hypothesis Pp : (0 < B2R precision)%R.
  Let Orc := ibex_oracles L esub eneg m fa.
  Let ev := rel_eval A esub.
  Let okV (v : var) : Prop := wl = true -> is_int_type (vty v) = false.
  Let okA (_ : formula) : Prop := True.
  Let tlh := tlit_hyps M D fold esub eneg m A L fa RC HL HN HS HA HD.
  Definition T_weak (T : nat -> box -> list formula -> option tres) : Prop := forall t b fs B, box_ok b -> int_range b -> (forall f, In f fs -> tlit fold False (fun _ => True) b f) ->
    T t b fs = Some (TSat B) -> forall f, In f fs -> forall rho, (forall v, In v (fvF f) -> imem (rho v) (b_getv B v)) -> weakened M (B2R precision) (unguarded M D mid (B2R precision) B) true f rho.

  Lemma tlit_lit b f : tlit fold False okA b f -> exists o x y, lit_op f = Some o /\ lit_sides f = Some (x, y) /\ finE x /\ finE y.
  Proof.
    intros (a & Ka & (W & Ni & Un) & _ & Ef).
    destruct Ka as [(x & y & -> & _)|[(x & y & -> & _)|[(x & y & -> & _)|(vs & g & ->)]]]; try (exfalso; destruct W as [[[? []] _] _]);
      destruct W as [W1 W2]; destruct Ef as [->| ->]; cbn [lit_op lit_sides]; eexists; exists x, y; (split; [reflexivity|]); (split; [reflexivity|]); (split; [exact (wfE_fin _ _ _ x W1)|exact (wfE_fin _ _ _ y W2)]).
  Qed.
  Lemma accepted_weak b0 B fs s : box_ok B -> box_sub B b0 -> (forall f, In f fs -> tlit fold False okA b0 f) -> cs_box s = B -> accepted ev (branch_largest mid) precision fs s ->
    (forall f, In f fs -> filtered b0 B f) -> forall f, In f fs -> forall rho, (forall v, In v (fvF f) -> imem (rho v) (b_getv B v)) ->
    weakened M (B2R precision) (unguarded M D mid (B2R precision) B) true f rho.
  Proof.
    intros Kb Sb Hl Es Ac Fi f Hf rho Hr. destruct (tlit_lit b0 f (Hl f Hf)) as (o & x & y & Eo & El & Fx & Fy).
    destruct (tlh b0 f (Hl f Hf)) as (Fv & Fin & _).
    apply (lit_weakened M _ _ f o x y rho true Eo El).
    destruct (IEvalProofs.lit_holds M D f o x y rho Eo El) as (P & Q & Sv).
    destruct (classic (defE M D x rho /\ defE M D y rho)) as [Df|Nd]; [|right; left; exact Nd].
    destruct (accepted_spec ev (branch_largest mid) precision fs s Ac f Hf) as (t & i & Et & Nt & H). rewrite Es in Et, H.
    assert (Hs : forall e1 e2, lit_sides f = Some (e1, e2) -> esub_faithful M D esub e1 e2) by (intros e1 e2 E; rewrite El in E; injection E as <- <-; exact (HD _ _ Fx Fy)).
    destruct (rel_eval_sound_on M D A esub HA RC f B t i Kb Hs Et) as [Ki Rs]. specialize (Rs rho Hr (proj2 Q Df)). destruct Rs as (R1 & R2 & R3).
    destruct H as [->|[H|[H|[H|[H|H]]]]].
    - left. apply relR_weak; [exact Pp|]. apply P. exact (R1 eq_refl).
    - destruct t; [left; apply relR_weak; [exact Pp|]; apply P; exact (R1 eq_refl)|congruence|]. left. apply (lit_weak M (B2R precision) f o x y rho Eo El). exact (R3 eq_refl precision Fp H).
    - destruct (classic (bounds_small (B2R precision) (FRel RGt x y))) as [Sm|Ns]; [|right; right; right; exact Ns]. left. apply (lit_weak M (B2R precision) f o x y rho Eo El).
      destruct (Fi f Hf) as (b & r & b1 & K1 & V1 & E1 & S1).
      apply (filt_weak M b (B2R precision) RC K1 Pp f true r b1 rho); auto.
      + intros v Hv. rewrite V1. auto.
      + exact (bounds_lit (B2R precision) f o x y Eo El Sm).
      + intros v Hv. pose proof (Hr v Hv) as Y. revert Y. apply sub_getv. exact S1.
    - left. pose proof (neq_lit f o Eo true H) as X. cbn in X. subst o. exact I.
    - destruct H as (act & Hb & Hu). right. right. left. intros v Hv. rewrite <- Sv in Hv. pose proof (Fv v Hv) as Hv0. rewrite <- (proj1 Sb) in Hv0.
      pose proof (idx0_nth B v Hv0) as Hi. assert (U : uses (bvars B) f (b_idx0 B v) = true) by (unfold uses; rewrite Hi; apply mem_var_In; exact Hv).
      destruct (i_bisectable mid (b_getv B v)) eqn:Eb; [|reflexivity]. exfalso.
      assert (Lt : (b_idx0 B v < b_size B)%nat) by (unfold b_size; apply nth_error_Some; congruence).
      pose proof (branch_largest_none mid B act Hb (b_idx0 B v) Lt (Hu _ U) Eb) as X.
      pose proof (bisectable_diam mid (b_getv B v) (b_getv_ok B v Kb) Eb) as Y. unfold b_getv in Y. congruence.
    - right. right. left. intros v Hv. rewrite <- Sv in Hv. exfalso. apply (H v); [rewrite (proj1 Sb); auto|exact Hv].
  Qed.
  Lemma T_weak_seq (k : nat -> nat) (lf : nat -> bool) : T_weak (solver_seq esub eneg m Orc term pn ev mid precision wl k lf).
  Proof.
    intros t b fs B Kb Rg Hl E. unfold solver_seq in E.
    destruct (theory_sat M D Orc esub eneg m fs b RC (fun f v Hf => proj1 (tlh b f (Hl f Hf)) v) (fun f Hf => proj1 (proj2 (tlh b f (Hl f Hf))))
      (fun f c Hf => proj1 (proj2 (proj2 (tlh b f (Hl f Hf)))) c) ev mid precision wl _ B Kb (seq_acc M D Orc term pn fs b ev mid precision Hm Rg (k t) (lf t)) E) as (X1 & X2 & X3 & (s & X4 & X5) & X6).
    exact (accepted_weak b B fs s X1 X2 Hl X4 X5 X6).
  Qed.
  Lemma T_weak_par (lf : nat -> bool) (jobs : nat) (sched : nat -> list nat) : T_weak (solver_par esub eneg m Orc term pn ev mid precision wl lf jobs sched).
  Proof.
    intros t b fs B Kb Rg Hl E. unfold solver_par in E.
    destruct (theory_sat M D Orc esub eneg m fs b RC (fun f v Hf => proj1 (tlh b f (Hl f Hf)) v) (fun f Hf => proj1 (proj2 (tlh b f (Hl f Hf))))
      (fun f c Hf => proj1 (proj2 (proj2 (tlh b f (Hl f Hf)))) c) ev mid precision wl _ B Kb (par_acc M D Orc term pn fs b ev mid precision Hm Rg (lf t) jobs (sched t)) E) as (X1 & X2 & X3 & (s & X4 & X5) & X6).
    exact (accepted_weak b B fs s X1 X2 Hl X4 X5 X6).
  Qed.
End Top.
