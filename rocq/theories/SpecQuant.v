(** * Specification vocabulary for solving quantified problems (C01, C29): where the pruning and the evaluation of quantified formulas come from *)
From Coq Require Import ZArith Reals List Bool.
From Flocq Require Import IEEE754.BinarySingleNaN.
From Verif Require Import Dbl Syntax Sem SpecForm FormulaCons ConsUnfolded Scoped Interval MathConv IEval ExprAlg DeltaStr Contr IbexConv Icp Theory TheoryUsed
  IteElim Regular Wff Sat Context SpecCtx CtxStruct CtxTop Forall SpecForall.
Import ListNotations.

Section Quant.
  Variables (M : interp) (D : pdom) (fold : expr -> expr -> option dbl) (esub : expr -> expr -> expr) (eneg : expr -> expr) (m : nat).
  Variables (A : iarith) (L : ibex) (fi : formula -> box -> option (list ival)) (term : list ival -> list ival -> bool) (pn : nat) (mid : dbl -> dbl -> dbl).
  Variables (K : eops) (pico : pico_t).
  (** The theory solver of an inner context, with one thread or several *)
  Definition inner_solver (precision : dbl) (wl : bool) (T : nat -> box -> list formula -> option tres) : Prop :=
    (exists k lf, T = solver_seq esub eneg m (ibex_oracles L esub eneg m fi) term pn (rel_eval A esub) mid precision wl k lf) \/
    (exists lf jobs sched, jobs <> 0 /\ T = solver_par esub eneg m (ibex_oracles L esub eneg m fi) term pn (rel_eval A esub) mid precision wl lf jobs sched).
  (** [iv] is what some contractor for the quantified formula [f], built over the variables of [b], returns for [b] at some point of its life.
      The conditions are those of C33. *)
  Definition contractor_result (f : formula) (b : box) (iv : list ival) : Prop :=
    exists precision wl T nx refine fpow n kk use_polytope qs g eps ops ctc t c0 b0 c1 bs fuel rounds bs' i,
    f = FForall qs g /\ is_finite precision = true /\ (0 < B2R precision)%R /\ inner_solver precision wl T /\
    (NoDup (bvars b ++ qs) /\ bvars b ++ qs <> [] /\ (forall v, In v (bvars b ++ qs) -> vty v = CONTINUOUS)) /\
    (unfolded fold g /\ consts_finite g /\ (forall v, In v (fvF g) -> In v (bvars b ++ qs)) /\ refine_ok refine (bvars b ++ qs)) /\
    fc_setup fold fpow n kk esub eneg m use_polytope (FForall qs g) (bvars b) eps = (Val (ops, Some ctc), t) /\
    cx_run fold K pico T mid precision ops (cx_init nx) = Some (c0, []) /\ admissible M D fold K nx ops [] (p_empty, []) /\ cx_box c0 = Some b0 /\ b_full b0 /\
    (forall b1, In b1 bs -> box_ok b1 /\ b_full b1 /\ bvars b1 = bvars b) /\
    fc_prunes fold K pico T mid precision (ibex_oracles L esub eneg m fi) term pn refine (FForall qs g) ctc fuel rounds bs c0 = Some (c1, bs') /\
    nth_error bs i = Some b /\ nth_error (map bvals bs') i = Some iv.
  (** [r] is what some evaluator for the quantified formula [f] answers for [b] at some point of its life. *)
  Definition evaluator_result (f : formula) (b : box) (r : etype * ival) : Prop :=
    exists precision T fuel c0 c1 bs rs i,
    fe_evals fold K pico T mid precision (rel_eval A esub) f fuel bs c0 = Some (c1, rs) /\ nth_error bs i = Some b /\ nth_error rs i = Some r.
  (** The theory solver's contractors for quantified formulas prune as such contractors do. *)
  Definition prunes_by_contractors (fa : formula -> box -> option (list ival)) : Prop :=
    forall f b iv, is_forall f = true -> box_ok b -> fa f b = Some iv -> contractor_result f b iv.
  (** The theory solver's evaluators: the relational one for comparisons, and for quantified formulas as those evaluators answer. *)
  Definition evaluates_by_evaluators (ev : formula -> box -> option (etype * ival)) : Prop :=
    (forall f b, is_forall f = false -> ev f b = rel_eval A esub f b) /\ (forall f b r, is_forall f = true -> ev f b = Some r -> evaluator_result f b r).
End Quant.
