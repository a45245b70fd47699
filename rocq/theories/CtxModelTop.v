(** * Models reported by the context built on the modelled theory solver (C29, C30) *)
From Coq Require Import ZArith Reals Lra Lia List Bool Arith.
From Flocq Require Import IEEE754.BinarySingleNaN.
From Verif Require Import Dbl DblProofs Syntax Sem SemProofs FormulaCons SpecForm Nnf PredAbs PredAbsProofs
  Scoped SpecScoped Interval IntervalProofs MathConv IEval IEvalProofs Contr ContrProofs IbexConv IbexConvProofs Icp IcpProofs IcpTop IcpPar IcpParProofs IcpParTop Filter FilterProofs Theory ExplainProofs TheoryProofs TheoryTop TheorySat
  IteElim SpecIte Regular Wff WffProofs Sat Context CtxStruct SatSem CdclProofs SpecCtx CtxBox CtxSem CtxRun CtxInv CtxTop SpecModel CtxModel CtxSat CtxDom.
Import ListNotations.

Section Top.
  Variables (M : interp) (D : pdom) (fold : expr -> expr -> option dbl).
  Variables (esub : expr -> expr -> expr) (eneg : expr -> expr) (m : nat) (A : iarith) (L : ibex) (fa : formula -> box -> option (list ival)) (term : list ival -> list ival -> bool) (pn : nat).
  Variables (mid : dbl -> dbl -> dbl) (precision : dbl) (wl : bool).
  Hypothesis RC : rc_ok M.
  Hypothesis Hm : mid_ok mid.
  Hypothesis HL : ibex_ok M D L.
  Hypothesis HN : eneg_faithful M D eneg.
  Hypothesis HS : sqrt_ok M D.
  Hypothesis HA : ia_ok M D A.
  Hypothesis HD : esub_ok M D esub.
  Let Orc := ibex_oracles L esub eneg m fa.
  Let ev := rel_eval A esub.
  Let okV (v : var) : Prop := wl = true -> is_int_type (vty v) = false.
  Let okA (_ : formula) : Prop := True.
  Let tlh := tlit_hyps M D fold esub eneg m A L fa RC HL HN HS HA HD.

  Lemma T_box_seq (k : nat -> nat) (lf : nat -> bool) : T_box fold False okA okV (solver_seq esub eneg m Orc term pn ev mid precision wl k lf).
  Proof.
    intros t b fs B Kb Rg _ Hl E. unfold solver_seq in E.
    destruct (theory_sat M D Orc esub eneg m fs b RC (fun f v Hf => proj1 (tlh b f (Hl f Hf)) v) (fun f Hf => proj1 (proj2 (tlh b f (Hl f Hf))))
      (fun f c Hf => proj1 (proj2 (proj2 (tlh b f (Hl f Hf)))) c) ev mid precision wl _ B Kb (seq_acc M D Orc term pn fs b ev mid precision Hm Rg (k t) (lf t)) E) as (X1 & X2 & X3 & _). auto.
  Qed.
  Lemma T_box_par (lf : nat -> bool) (jobs : nat) (sched : nat -> list nat) : T_box fold False okA okV (solver_par esub eneg m Orc term pn ev mid precision wl lf jobs sched).
  Proof.
    intros t b fs B Kb Rg _ Hl E. unfold solver_par in E.
    destruct (theory_sat M D Orc esub eneg m fs b RC (fun f v Hf => proj1 (tlh b f (Hl f Hf)) v) (fun f Hf => proj1 (proj2 (tlh b f (Hl f Hf))))
      (fun f c Hf => proj1 (proj2 (proj2 (tlh b f (Hl f Hf)))) c) ev mid precision wl _ B Kb (par_acc M D Orc term pn fs b ev mid precision Hm Rg (lf t) jobs (sched t)) E) as (X1 & X2 & X3 & _). auto.
  Qed.
  Variables (K : eops) (pico : pico_t) (n : nat) (T : nat -> box -> list formula -> option tres).
  Hypothesis HP : pico_ok pico.
  Hypothesis HT : T_sound M D fold T False okA okV.
  Hypothesis HB : T_box fold False okA okV T.
  Hypothesis Fp : is_finite precision = true.
  Hypothesis Pp : (0 < B2R precision)%R.
  Lemma cont_okV v : vty v = CONTINUOUS -> okV v.
  Proof. intros Hv _. unfold is_int_type. rewrite Hv. reflexivity. Qed.
  Lemma ints_okV ops : ints_ok wl ops -> Forall (op_okV okV) ops.
  Proof. intros Io. apply Forall_forall. intros o Ho. destruct o; try exact I; cbn [op_okV]; intros w; exact (Io w _ v Ho eq_refl). Qed.
  Theorem model_top ops c a : cx_run fold K pico T mid precision ops (cx_init n) = Some (c, a) -> admissible M D fold K n ops [] (p_empty, []) -> ints_ok wl ops -> Forall op_typed ops ->
    Forall2 (fun q r => model_ok (fst q) (snd q) r) (checks ops (p_empty, []) []) a.
  Proof.
    intros E Ad Io Ty. apply (model_run M D fold K pico T mid precision n False okA okV cont_okV RC HP HT HB Hm Fp Pp ops c a E Ad (ints_okV ops Io) Ty). intros v f _. exact I.
  Qed.
  Theorem tight_top ops c a k md c' : cx_run fold K pico T mid precision ops (cx_init n) = Some (c, a) -> admissible M D fold K n ops [] (p_empty, []) -> ints_ok wl ops ->
    cx_check fold pico T mid precision k c = Some (Some md, c') ->
    exists b B, cx_box c = Some b /\ accepted_box T b B /\ b_empty B = false /\
      forall v, In v (bvars md) -> In v (bvars B) /\
        ((exists x, imem x (b_getv B v)) -> tight_ok precision (vty v) (b_getv B v) (b_getv md v)) /\ ((forall x, ~ imem x (b_getv B v)) -> forall x, ~ imem x (b_getv md v)).
  Proof.
    intros E Ad Io Ec. apply (tight_run M D fold K pico T mid precision n False okA okV cont_okV RC HP HT HB Hm Fp Pp ops c a k md c' E Ad (ints_okV ops Io)); [intros v f _; exact I|exact Ec].
  Qed.
End Top.
