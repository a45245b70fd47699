(** * Quantified problems: the context over contractors and evaluators with inner contexts (C01, C29) *)
From Coq Require Import ZArith Reals Lra Lia List Bool Arith.
From Flocq Require Import IEEE754.BinarySingleNaN.
From Verif Require Import Dbl DblProofs Syntax Sem SemProofs FormulaCons SpecForm Nnf PredAbs PredAbsProofs
  Scoped SpecScoped Interval IntervalProofs MathConv IEval IEvalProofs ExprAlg DeltaStr ConsUnfolded Contr ContrProofs IbexConv IbexConvProofs Icp IcpProofs IcpTop IcpPar IcpParProofs IcpParTop Filter FilterProofs Theory ExplainProofs TheoryProofs TheoryTop TheorySat
  IteElim SpecIte Regular Wff WffProofs Sat Context CtxStruct SatSem CdclProofs SpecCtx CtxBox CtxSem CtxRun CtxInv CtxTop SpecModel CtxModel CtxSat CtxDom CtxModelTop Forall SpecForall ForallInner ForallProofs ForallEval SpecQuant.
Import ListNotations.

Lemma forall2_nth {X Y} (P : X -> Y -> Prop) l r i x y : Forall2 P l r -> nth_error l i = Some x -> nth_error r i = Some y -> P x y.
Proof. intros F. revert i. induction F; intros [|i]; cbn [nth_error]; try discriminate; [congruence|apply IHF]. Qed.
(** An evaluator never answers UNSAT. *)
Lemma fe_no_unsat fold K pico T mid precision ev f fuel bs : forall c c' rs, fe_evals fold K pico T mid precision ev f fuel bs c = Some (c', rs) -> forall r, In r rs -> fst r <> UNSAT.
Proof.
  induction bs as [|b bs IH]; intros c c' rs E r Hr; cbn [fe_evals] in E; [assert (rs = []) by congruence; subst; destruct Hr|].
  destruct (fe_eval fold K pico T mid precision ev f fuel b c) as [[c1 r1]|] eqn:E1; cbn [IEval.bind fst snd] in E; [|discriminate].
  destruct (fe_evals fold K pico T mid precision ev f fuel bs c1) as [[c2 rs2]|] eqn:E2; cbn [IEval.bind fst snd] in E; [|discriminate].
  assert (X : rs = r1 :: rs2) by congruence. subst rs. destruct Hr as [<-|Hr]; [|exact (IH _ _ _ E2 r Hr)].
  unfold fe_eval in E1. destruct (cx_run fold K pico T mid precision (inner_query b fuel) c) as [[c3 [|[mm|] [|? ?]]]|]; try discriminate.
  - destruct (fe_diam ev (fe_disjuncts f) (overwrite b mm) dzero) as [d|]; cbn [IEval.bind] in E1; [|discriminate].
    assert (X : r1 = (UNKNOWN, mk_ival dzero d)) by congruence. rewrite X. discriminate.
  - assert (X : r1 = (VALID, mk_ival dzero dzero)) by congruence. rewrite X. discriminate.
Qed.

Section TopQ.
  Variables (M : interp) (D : pdom) (fold : expr -> expr -> option dbl).
  Variables (esub : expr -> expr -> expr) (eneg : expr -> expr) (m : nat) (A : iarith) (L : ibex) (fa fi : formula -> box -> option (list ival)) (term : list ival -> list ival -> bool) (pn : nat).
  Variables (ev : formula -> box -> option (etype * ival)) (mid : dbl -> dbl -> dbl) (precision : dbl) (wl : bool).
  Hypothesis RC : rc_ok M.
  Hypothesis Hm : mid_ok mid.
  Hypothesis HL : ibex_ok M D L.
  Hypothesis HN : eneg_faithful M D eneg.
  Hypothesis HS : sqrt_ok M D.
  Hypothesis HA : ia_ok M D A.
  Hypothesis HD : esub_ok M D esub.
  Variables (K : eops) (pico : pico_t).
  Hypothesis HP : pico_ok pico.
  Hypothesis HF : prunes_by_contractors M D fold esub eneg m A L fi term pn mid K pico fa.
  Hypothesis HE : evaluates_by_evaluators fold esub A mid K pico ev.

  Lemma ev_realised : ev_ok A esub ev.
  Proof.
    split; [exact (proj1 HE)|]. intros f b i Ff E. destruct (proj2 HE f b _ Ff E) as (p & T & fuel & c0 & c1 & bs & rs & j & E1 & _ & E2).
    exact (fe_no_unsat _ _ _ _ _ _ _ _ _ _ _ _ _ E1 _ (nth_error_In _ _ E2) eq_refl).
  Qed.
  Lemma contractor_step f b iv : contractor_result M D fold esub eneg m A L fi term pn mid K pico f b iv -> step_ok M D [f] b iv.
  Proof.
    intros (p & w & T & nx & refine & fpow & n & kk & up & qs & g & eps & ops & ctc & t & c0 & b0 & c1 & bs & fuel & rounds & bs' & i & -> & Fp & Pp & Hs & (N1 & N2 & N3) & (U & Cf & Fv & Rf) & Es & Er & Ad & Eb & Fb & Hb & Ep & I1 & I2).
    assert (X : T_sound M D fold T False (fun _ => True) (fun v => w = true -> is_int_type (vty v) = false) /\ T_box fold False (fun _ => True) (fun v => w = true -> is_int_type (vty v) = false) T /\
      T_full fold (fun _ => True) (fun v => w = true -> is_int_type (vty v) = false) T).
    { destruct Hs as [(k & lf & ->)|(lf & jobs & sched & J & ->)]; (split; [|split]).
      - exact (T_seq M D fold esub eneg m A L fi term pn mid p w RC Hm HL HN HS HA HD k lf).
      - exact (T_box_seq M D fold esub eneg m A L fi term pn mid p w RC Hm HL HN HS HA HD k lf).
      - exact (T_full_seq M D fold esub eneg m A L fi term pn mid p w RC Hm HL HN HS HA HD k lf).
      - exact (T_par M D fold esub eneg m A L fi term pn mid p w RC Hm HL HN HS HA HD lf jobs sched J).
      - exact (T_box_par M D fold esub eneg m A L fi term pn mid p w RC Hm HL HN HS HA HD lf jobs sched).
      - exact (T_full_par M D fold esub eneg m A L fi term pn mid p w RC Hm HL HN HS HA HD lf jobs sched). }
    destruct X as (X1 & X2 & X3).
    pose proof (fc_top M D fold esub eneg m L fi term pn mid p w RC Hm HL HN HS HD K pico T nx HP X1 X2 X3 Fp Pp refine fpow n kk up qs g (bvars b) eps ops ctc t c0 b0 c1 bs fuel rounds bs' N1 N2 N3 U Cf Fv Rf Es Er Ad Eb Fb Hb Ep) as F.
    destruct (nth_error bs' i) as [b'|] eqn:I3.
    - rewrite (map_nth_error bvals i bs' I3) in I2. assert (Y : bvals b' = iv) by congruence. subst iv. exact (proj2 (forall2_nth _ _ _ i b b' F I1 I3)).
    - apply nth_error_None in I3. assert (Z : i < length (map bvals bs')) by (apply nth_error_Some; congruence). rewrite map_length in Z. lia.
  Qed.
  Lemma fa_realised f : fa_keeps M D esub eneg m L fa f.
  Proof. intros Ff vars b iv Kb Vb E. apply contractor_step. exact (HF f b iv Ff Kb E). Qed.

  Let Orc := ibex_oracles L esub eneg m fa.
  Let okV (v : var) : Prop := wl = true -> is_int_type (vty v) = false.
  Let okA := fa_keeps M D esub eneg m L fa.
  Let tlh := tlit_hyps_q M D fold esub eneg m A L fa ev True RC HL HN HS HA HD ev_realised.
  Lemma TQ_seq (k : nat -> nat) (lf : nat -> bool) : T_sound M D fold (solver_seq esub eneg m Orc term pn ev mid precision wl k lf) True okA okV.
  Proof. exact (T_seq_q M D fold esub eneg m A L fa term pn ev mid precision wl True RC Hm HL HN HS HA HD ev_realised k lf). Qed.
  Lemma TQ_par (lf : nat -> bool) (jobs : nat) (sched : nat -> list nat) : jobs <> 0 -> T_sound M D fold (solver_par esub eneg m Orc term pn ev mid precision wl lf jobs sched) True okA okV.
  Proof. exact (T_par_q M D fold esub eneg m A L fa term pn ev mid precision wl True RC Hm HL HN HS HA HD ev_realised lf jobs sched). Qed.
  Lemma TQ_box_seq (k : nat -> nat) (lf : nat -> bool) : T_box fold True okA okV (solver_seq esub eneg m Orc term pn ev mid precision wl k lf).
  Proof.
    intros t b fs B Kb Rg _ Hl E. unfold solver_seq in E.
    destruct (theory_sat M D Orc esub eneg m fs b RC (fun f v Hf => proj1 (tlh b f (Hl f Hf)) v) (fun f Hf => proj1 (proj2 (tlh b f (Hl f Hf))))
      (fun f c Hf => proj1 (proj2 (proj2 (tlh b f (Hl f Hf)))) c) ev mid precision wl _ B Kb (seq_acc M D Orc term pn fs b ev mid precision Hm Rg (k t) (lf t)) E) as (X1 & X2 & X3 & _). auto.
  Qed.
  Lemma TQ_box_par (lf : nat -> bool) (jobs : nat) (sched : nat -> list nat) : T_box fold True okA okV (solver_par esub eneg m Orc term pn ev mid precision wl lf jobs sched).
  Proof.
    intros t b fs B Kb Rg _ Hl E. unfold solver_par in E.
    destruct (theory_sat M D Orc esub eneg m fs b RC (fun f v Hf => proj1 (tlh b f (Hl f Hf)) v) (fun f Hf => proj1 (proj2 (tlh b f (Hl f Hf))))
      (fun f c Hf => proj1 (proj2 (proj2 (tlh b f (Hl f Hf)))) c) ev mid precision wl _ B Kb (par_acc M D Orc term pn fs b ev mid precision Hm Rg (lf t) jobs (sched t)) E) as (X1 & X2 & X3 & _). auto.
  Qed.
  Variables (n : nat) (T : nat -> box -> list formula -> option tres).
  Hypothesis HT : T_sound M D fold T True okA okV.
  Theorem unsat_quant ops c a : cx_run fold K pico T mid precision ops (cx_init n) = Some (c, a) -> admissible_q M D fold K n True ops [] (p_empty, []) -> ints_ok wl ops ->
    Forall2 (fun q r => r = None -> ~ exists rho, solution M D q rho) (problems ops (p_empty, [])) a.
  Proof.
    intros E Ad Io. apply (unsat_top_q M D fold esub eneg m L fa mid precision wl True RC K pico n T HP HT ops c a E Ad Io). intros v f _. apply fa_realised.
  Qed.
  Hypothesis HB : T_box fold True okA okV T.
  Hypothesis Fp : is_finite precision = true.
  Hypothesis Pp : (0 < B2R precision)%R.
  Theorem model_quant ops c a : cx_run fold K pico T mid precision ops (cx_init n) = Some (c, a) -> admissible_q M D fold K n True ops [] (p_empty, []) -> ints_ok wl ops -> Forall op_typed ops ->
    Forall2 (fun q r => model_ok (fst q) (snd q) r) (checks ops (p_empty, []) []) a.
  Proof.
    intros E Ad Io Ty. apply (model_run M D fold K pico T mid precision n True okA okV (cont_okV wl) RC HP HT HB Hm Fp Pp ops c a E Ad (ints_okV wl ops Io) Ty). intros v f _. apply fa_realised.
  Qed.
End TopQ.
