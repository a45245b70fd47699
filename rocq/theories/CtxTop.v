(** * Unsat answers of the context built on the modelled theory solver (C01) *)
From Coq Require Import ZArith Reals Lra Lia List Bool Arith.
From Flocq Require Import IEEE754.BinarySingleNaN.
From Verif Require Import Dbl DblProofs Syntax Sem SemProofs FormulaCons FormulaConsProofs SpecForm Nnf NnfProofs PredAbs PredAbsProofs Tseitin TseitinProofs ConsUnfolded
  Scoped SpecScoped ScopedProofs Interval IntervalProofs MathConv MathConvProofs IEval IEvalProofs Contr ContrProofs IbexConv IbexConvProofs Icp IcpProofs IcpTop IcpPar IcpParProofs IcpParTop Filter FilterProofs Theory ExplainProofs TheoryProofs TheoryUsed TheoryTop IteElim SpecIte IteElimProofs
  Regular RegularProofs Wff WffProofs Sat Context CtxStruct SatSem CdclProofs SpecCtx CtxBox CtxSem CtxRun CtxInv.
Import ListNotations.

(** The difference operator computes differences (of terms with finite literals). *)
Definition esub_ok (M : interp) (D : pdom) (esub : expr -> expr -> expr) : Prop := forall a b, finE a -> finE b -> esub_faithful M D esub a b.

(** The theory solver of a context, with any number of steps allowed in each call, any branching order. *)
Definition solver_seq esub eneg m (Orc : oracles) term pn ev mid precision wl (k : nat -> nat) (lf : nat -> bool) : nat -> box -> list formula -> option tres :=
  fun t b fs => theory_check esub eneg m wl false (search_seq Orc term pn ev mid precision (k t) (lf t) fs) b fs.
(** With [jobs] worker threads, under any schedule in each call. *)
Definition solver_par esub eneg m (Orc : oracles) term pn ev mid precision wl (lf : nat -> bool) (jobs : nat) (sched : nat -> list nat) : nat -> box -> list formula -> option tres :=
  fun t b fs => theory_check esub eneg m wl false (search_par Orc term pn ev mid precision (lf t) jobs (sched t) fs) b fs.

(** An evaluator of the theory solver: the relational one for comparisons; for quantified formulas it answers VALID or UNKNOWN, never
    UNSAT (formula_evaluator.cc:51-66, forall_formula_evaluator.cc:94-128). *)
Definition ev_ok (A : iarith) (esub : expr -> expr -> expr) (ev : formula -> box -> option (etype * ival)) : Prop :=
  (forall f b, is_forall f = false -> ev f b = rel_eval A esub f b) /\ (forall f b i, is_forall f = true -> ev f b <> Some (UNSAT, i)).
Lemma ev_ok_rel A esub : ev_ok A esub (rel_eval A esub).
Proof. split; [reflexivity|]. intros f b i H. destruct f; discriminate. Qed.

Section TopQ.
  Variables (M : interp) (D : pdom) (fold : expr -> expr -> option dbl).
  Variables (esub : expr -> expr -> expr) (eneg : expr -> expr) (m : nat) (A : iarith) (L : ibex) (fa : formula -> box -> option (list ival)) (term : list ival -> list ival -> bool) (pn : nat).
  Variables (ev : formula -> box -> option (etype * ival)) (mid : dbl -> dbl -> dbl) (precision : dbl) (wl : bool) (qa : Prop).
  Hypothesis RC : rc_ok M.
  Hypothesis Hm : mid_ok mid.
  Hypothesis HL : ibex_ok M D L.
  Hypothesis HN : eneg_faithful M D eneg.
  Hypothesis HS : sqrt_ok M D.
  Hypothesis HA : ia_ok M D A.
  Hypothesis HD : esub_ok M D esub.
  Hypothesis HE : ev_ok A esub ev.
  Let Orc := ibex_oracles L esub eneg m fa.
  Let okV (v : var) : Prop := wl = true -> is_int_type (vty v) = false.
  Definition fa_keeps (a : formula) : Prop := is_forall a = true -> forall vars, fa_ok M D Orc a vars.
  Let okA := fa_keeps.

  Lemma tlit_hyps_q b f : tlit fold qa okA b f ->
    (forall v, In v (fvF f) -> In v (bvars b)) /\ finF f /\ (forall c, lit_ctc esub eneg m (bvars b) f = Some c -> c_ok M D Orc (bvars b) c) /\ evaluator_local M D ev f (bvars b).
  Proof.
    intros (a & Ka & (W & Ni & Un) & Ha & Ef).
    assert (Sa : side_ok M D esub a).
    { intros x y E. destruct Ka as [(x' & y' & -> & _)|[(x' & y' & -> & _)|[(x' & y' & -> & _)|(vs & g & ->)]]]; [| | |discriminate E];
        injection E as <- <-; destruct W as [W1 W2]; exact (HD _ _ (wfE_fin _ _ _ _ W1) (wfE_fin _ _ _ _ W2)). }
    assert (Fv : forall v, In v (fvF f) -> In v (bvars b)).
    { intros v Hv. assert (Hv' : In v (fvF a)) by (destruct Ef as [->| ->]; exact Hv). exact (proj1 (key_tvars fold qa b a Ka W Ni v Hv')). }
    assert (Fin : finF f) by (destruct Ef as [->| ->]; apply (wfF_fin (tvars b) isbool _ a W)).
    assert (Sf : side_ok M D esub f).
    { destruct Ef as [->| ->]; [exact Sa|]. destruct Ka as [(x & y & -> & _)|[(x & y & -> & _)|[(x & y & -> & _)|(vs & g & ->)]]]; exact Sa. }
    split; [exact Fv|]. split; [exact Fin|]. split.
    - intros c Ec. apply (lit_ctc_ok M D L esub eneg m fa (bvars b) f c HL HN HS Fv); [intros _; exact Sf| |exact Ec].
      intros C. destruct Ef as [->| ->]; [exact (Ha C (bvars b))|discriminate C].
    - intros b0 i rho Kb Eb E. destruct (is_forall f) eqn:Ff; [destruct (proj2 HE f b0 i Ff E)|]. rewrite (proj1 HE f b0 Ff) in E.
      exact (evaluator_local_of M D A esub f (bvars b) HA RC Fv Sf b0 i rho Kb Eb E).
  Qed.
  Lemma T_sound_of_q (T : nat -> box -> list formula -> option tres) :
    (forall t b fs E, box_ok b -> int_range b -> (forall f, In f fs -> tlit fold qa okA b f) -> (wl = true -> no_ints b) -> T t b fs = Some (TUnsat E) ->
       incl E fs /\ forall rho, well_typed rho -> in_box rho b -> (forall f, In f E -> gap_free f rho) -> ~ (forall f, In f E -> solves M D f rho)) ->
    T_sound M D fold T qa okA okV.
  Proof.
    intros H t b fs E Kb Rg Hv Hl Et. destruct (H t b fs E Kb Rg Hl (fun w v Hi => Hv v Hi w) Et) as [Sub No]. split; [exact Sub|].
    intros rho W I Rf Hf. apply (No rho W I).
    - intros f Hfe. exact (reg_gap M D f rho (Rf f Hfe) true).
    - intros f Hfe. split; [exact (proj2 (reg_def M D off_gaps) f rho (Rf f Hfe))|exact (Hf f Hfe)].
  Qed.
  Lemma T_seq_q (k : nat -> nat) (lf : nat -> bool) :
    T_sound M D fold (solver_seq esub eneg m Orc term pn ev mid precision wl k lf) qa okA okV.
  Proof.
    apply T_sound_of_q. intros t b fs E Kb Rg Hl Hw Et.
    exact (theory_seq M D Orc term pn esub eneg m fs b RC (fun f v Hf => proj1 (tlit_hyps_q b f (Hl f Hf)) v) (fun f Hf => proj1 (proj2 (tlit_hyps_q b f (Hl f Hf))))
      (fun f c Hf => proj1 (proj2 (proj2 (tlit_hyps_q b f (Hl f Hf)))) c) ev (fun f Hf => proj2 (proj2 (proj2 (tlit_hyps_q b f (Hl f Hf))))) mid Hm Rg precision wl (k t) (lf t) E Kb Hw Et).
  Qed.
  Lemma T_par_q (lf : nat -> bool) (jobs : nat) (sched : nat -> list nat) : jobs <> 0 ->
    T_sound M D fold (solver_par esub eneg m Orc term pn ev mid precision wl lf jobs sched) qa okA okV.
  Proof.
    intros J. apply T_sound_of_q. intros t b fs E Kb Rg Hl Hw Et.
    exact (theory_par M D Orc term pn esub eneg m fs b RC (fun f v Hf => proj1 (tlit_hyps_q b f (Hl f Hf)) v) (fun f Hf => proj1 (proj2 (tlit_hyps_q b f (Hl f Hf))))
      (fun f c Hf => proj1 (proj2 (proj2 (tlit_hyps_q b f (Hl f Hf)))) c) ev (fun f Hf => proj2 (proj2 (proj2 (tlit_hyps_q b f (Hl f Hf))))) mid Hm Rg precision wl (lf t) jobs (sched t) E J Kb Hw Et).
  Qed.
  Variables (K : eops) (pico : pico_t) (n : nat) (T : nat -> box -> list formula -> option tres).
  Hypothesis HP : pico_ok pico.
  Hypothesis HT : T_sound M D fold T qa okA okV.
  Definition ints_ok (ops : list cop) : Prop := wl = true -> forall o v, In o ops -> match o with ODeclare w _ | ODeclareDom w _ _ _ => w = v | _ => False end -> is_int_type (vty v) = false.
  Theorem unsat_top_q ops c a : cx_run fold K pico T mid precision ops (cx_init n) = Some (c, a) -> admissible_q M D fold K n qa ops [] (p_empty, []) -> ints_ok ops ->
    (forall v f, In (v, f) (ss_pa (cx_sat c)) -> fa_keeps f) ->
    Forall2 (fun q r => r = None -> ~ exists rho, solution M D q rho) (problems ops (p_empty, [])) a.
  Proof.
    intros E Ad Io Hq. apply (run_unsat M D fold K pico T mid precision n qa okA okV) with (c := c); auto.
    - intros v Hv _. unfold is_int_type. rewrite Hv. reflexivity.
    - apply Forall_forall. intros o Ho. destruct o; try exact I; cbn [op_okV]; intros w; exact (Io w _ v Ho eq_refl).
  Qed.
End TopQ.

(** ** Without quantifiers *)
Lemma tlit_false fold (okA : formula -> Prop) b f : (forall a, is_forall a = false -> okA a) -> tlit fold False (fun _ => True) b f -> tlit fold False okA b f.
Proof. intros H (a & Ka & (W & Wr) & _ & E). exists a. split; [exact Ka|]. split; [exact (conj W Wr)|]. split; [apply H; exact (key_nq fold b a Ka W)|exact E]. Qed.
Section Top.
  Variables (M : interp) (D : pdom) (fold : expr -> expr -> option dbl).
  Variables (esub : expr -> expr -> expr) (eneg : expr -> expr) (m : nat) (A : iarith) (L : ibex) (fa : formula -> box -> option (list ival)) (term : list ival -> list ival -> bool) (pn : nat).
  Variables (mid : dbl -> dbl -> dbl) (precision : dbl) (wl : bool).
  Hypothesis RC : rc_ok M.
  Hypothesis Hm : mid_ok mid.
  Hypothesis HL : ibex_ok M D L.
  Hypothesis HN : eneg_faithful M D eneg.
  Hypothesis HS : sqrt_ok M D.
  Hypothesis HA : ia_ok M D A.
  Hypothesis HD : esub_ok M D esub.
  Let Orc := ibex_oracles L esub eneg m fa.
  Let ev := rel_eval A esub.
  Let okV (v : var) : Prop := wl = true -> is_int_type (vty v) = false.
  Let okA (_ : formula) : Prop := True.

  Lemma tlit_hyps b f : tlit fold False okA b f ->
    (forall v, In v (fvF f) -> In v (bvars b)) /\ finF f /\ (forall c, lit_ctc esub eneg m (bvars b) f = Some c -> c_ok M D Orc (bvars b) c) /\ evaluator_local M D ev f (bvars b).
  Proof.
    intros H. apply (tlit_hyps_q M D fold esub eneg m A L fa ev False RC HL HN HS HA HD (ev_ok_rel A esub)).
    revert H. apply tlit_false. intros a Ha C. congruence.
  Qed.
  Lemma T_instance T : T_sound M D fold T False (fa_keeps M D esub eneg m L fa) okV -> T_sound M D fold T False okA okV.
  Proof.
    intros H t b fs E Kb Rg Hv Hl. apply (H t b fs E Kb Rg Hv). intros f Hf. generalize (Hl f Hf). apply tlit_false. intros a Ha C. congruence.
  Qed.
  Lemma T_sound_of (T : nat -> box -> list formula -> option tres) :
    (forall t b fs E, box_ok b -> int_range b -> (forall f, In f fs -> tlit fold False okA b f) -> (wl = true -> no_ints b) -> T t b fs = Some (TUnsat E) ->
       incl E fs /\ forall rho, well_typed rho -> in_box rho b -> (forall f, In f E -> gap_free f rho) -> ~ (forall f, In f E -> solves M D f rho)) ->
    T_sound M D fold T False okA okV.
  Proof.
    intros H t b fs E Kb Rg Hv Hl Et. destruct (H t b fs E Kb Rg Hl (fun w v Hi => Hv v Hi w) Et) as [Sub No]. split; [exact Sub|].
    intros rho W I Rf Hf. apply (No rho W I).
    - intros f Hfe. exact (reg_gap M D f rho (Rf f Hfe) true).
    - intros f Hfe. split; [exact (proj2 (reg_def M D off_gaps) f rho (Rf f Hfe))|exact (Hf f Hfe)].
  Qed.
  Lemma T_seq (k : nat -> nat) (lf : nat -> bool) :
    T_sound M D fold (solver_seq esub eneg m Orc term pn ev mid precision wl k lf) False okA okV.
  Proof. apply T_instance. exact (T_seq_q M D fold esub eneg m A L fa term pn ev mid precision wl False RC Hm HL HN HS HA HD (ev_ok_rel A esub) k lf). Qed.
  Lemma T_par (lf : nat -> bool) (jobs : nat) (sched : nat -> list nat) : jobs <> 0 ->
    T_sound M D fold (solver_par esub eneg m Orc term pn ev mid precision wl lf jobs sched) False okA okV.
  Proof. intros J. apply T_instance. exact (T_par_q M D fold esub eneg m A L fa term pn ev mid precision wl False RC Hm HL HN HS HA HD (ev_ok_rel A esub) lf jobs sched J). Qed.
  Variables (K : eops) (pico : pico_t) (n : nat) (T : nat -> box -> list formula -> option tres).
  Hypothesis HP : pico_ok pico.
  Hypothesis HT : T_sound M D fold T False okA okV.
  Theorem unsat_top ops c a : cx_run fold K pico T mid precision ops (cx_init n) = Some (c, a) -> admissible M D fold K n ops [] (p_empty, []) -> ints_ok wl ops ->
    Forall2 (fun q r => r = None -> ~ exists rho, solution M D q rho) (problems ops (p_empty, [])) a.
  Proof.
    intros E Ad Io. apply (run_unsat M D fold K pico T mid precision n False okA okV) with (c := c); auto.
    - intros v Hv _. unfold is_int_type. rewrite Hv. reflexivity.
    - apply Forall_forall. intros o Ho. destruct o; try exact I; cbn [op_okV]; intros w; exact (Io w _ v Ho eq_refl).
    - intros v f _. exact I.
  Qed.
End Top.

Lemma solver_seq_sub esub eneg m Orc term pn ev mid precision wl k lf t b fs E :
  solver_seq esub eneg m Orc term pn ev mid precision wl k lf t b fs = Some (TUnsat E) -> incl E fs.
Proof. intros Et. unfold solver_seq in Et. eapply theory_used; [|exact Et]. apply seq_search_used. Qed.
Lemma solver_par_sub esub eneg m Orc term pn ev mid precision wl lf jobs sched t b fs E :
  solver_par esub eneg m Orc term pn ev mid precision wl lf jobs sched t b fs = Some (TUnsat E) -> incl E fs.
Proof. intros Et. unfold solver_par in Et. eapply theory_used; [|exact Et]. apply par_search_used. Qed.
