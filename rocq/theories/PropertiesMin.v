(** * Optimization (C28)

    [minimize fs c] and [maximize f c] (Minim.v) are the calls Minimize(fs) and Maximize(f) make on the context [c]:
    new variables, declarations of the variables standing for the objectives ([declared_by]), and one assertion.
    [feasible], [undominated] and [posed] are in SpecMin.v; [exact M s] (SpecAlg.v): an assumption recorded by the
    expression builder holds.  [fpow] is std::pow, [n] bounds recursion. *)
From Coq Require Import ZArith Reals List Bool.
From Flocq Require Import IEEE754.BinarySingleNaN.
From Verif Require Import Dbl Syntax Sem FormulaCons Interval IEval StdInterp ExprAlg SpecAlg Scoped Context SpecCtx Minim SpecMin MinimProofs
  ExamplesForm ExamplesCtx ExamplesMin.
Import ListNotations.

(** At a point satisfying the current constraints, the added assertion can be satisfied exactly when no point satisfying them is strictly
    smaller in every objective.  Missing for the full statement: constraints that are bounds have been moved into the box before, where a
    strict bound has become the next double (see the refutation below). *)
Theorem C28_minimize_partial : forall uf rc fpow n fs c b ops t, cx_box c = Some b -> minimize fpow n fs c = (Val ops, t) -> Forall (exact (std uf rc)) t ->
  posed (std uf rc) stdD b (sv_vec (cx_stack c)) fs (cx_next c) -> forall rho, feasible (std uf rc) b (sv_vec (cx_stack c)) rho ->
  ((exists rho1, agree_off (declared_by ops) rho rho1 /\ forall f, In (OAssert f) ops -> holds (std uf rc) f rho1) <->
   undominated (std uf rc) b (sv_vec (cx_stack c)) fs rho).
Proof. exact minimize_ctx. Qed.
Print Assumptions C28_minimize_partial.
Example C28_minimize_example : forall uf rc fpow, let M := std uf rc in exists ops t, minimize fpow 20 [mobj] mctx = (Val ops, t) /\ Forall (exact M) t /\ cx_box mctx = Some mbox /\
  posed M stdD mbox (sv_vec (cx_stack mctx)) [mobj] (cx_next mctx) /\
  feasible M mbox (sv_vec (cx_stack mctx)) (at3 3 0 0) /\ undominated M mbox (sv_vec (cx_stack mctx)) [mobj] (at3 3 0 0) /\
  feasible M mbox (sv_vec (cx_stack mctx)) (at3 1 2 0) /\ ~ undominated M mbox (sv_vec (cx_stack mctx)) [mobj] (at3 1 2 0).
Proof. exact m_meets. Qed.
(** Maximize asks that no point satisfying the constraints be strictly larger. *)
Theorem C28_maximize_partial : forall uf rc fpow n f c b ops t, cx_box c = Some b -> maximize fpow n f c = (Val ops, t) -> Forall (exact (std uf rc)) t ->
  posed (std uf rc) stdD b (sv_vec (cx_stack c)) [f] (cx_next c) -> forall rho, feasible (std uf rc) b (sv_vec (cx_stack c)) rho ->
  ((exists rho1, agree_off (declared_by ops) rho rho1 /\ forall f, In (OAssert f) ops -> holds (std uf rc) f rho1) <->
   ~ exists rho', feasible (std uf rc) b (sv_vec (cx_stack c)) rho' /\ (evalE (std uf rc) f rho' > evalE (std uf rc) f rho)%R).
Proof. exact maximize_ctx. Qed.
Print Assumptions C28_maximize_partial.
Example C28_maximize_example : forall uf rc fpow, let M := std uf rc in exists ops t, maximize fpow 20 ex_x mctx = (Val ops, t) /\ Forall (exact M) t /\ cx_box mctx = Some mbox /\
  posed M stdD mbox (sv_vec (cx_stack mctx)) [ex_x] (cx_next mctx) /\ feasible M mbox (sv_vec (cx_stack mctx)) (at3 10 0 0).
Proof. exact mx_meets. Qed.
(** x in [0,10], x > 1, minimize x: a point satisfies the assertions and what Minimize adds although a smaller point satisfies the assertions. *)
Theorem C28_strict_bound_refuted : forall uf rc fpow, let M := std uf rc in exists c ops t rho, run_ex ex_T ops_min = Some (c, []) /\ minimize fpow 20 [ex_x] c = (Val ops, t) /\ Forall (exact M) t /\
  well_typed rho /\ between (dZ 0) (dZ 10) (rho vx) /\ holds M (xc RGt 1) rho /\
  (exists rho1, agree_off (declared_by ops) rho rho1 /\ forall f, In (OAssert f) ops -> holds M f rho1) /\
  exists rho', well_typed rho' /\ between (dZ 0) (dZ 10) (rho' vx) /\ holds M (xc RGt 1) rho' /\ (rho' vx < rho vx)%R.
Proof. exact strict_optimum. Qed.
Print Assumptions C28_strict_bound_refuted.
(** b or x >= 1, minimize x: Minimize throws, because a Boolean variable is connected to the objective. *)
Theorem C28_boolean_refuted : forall fpow, exists c t, run_ex ex_T ops_bool = Some (c, []) /\ minimize fpow 20 [ex_x] c = (ExprAlg.Throw, t).
Proof. exact boolean_throws. Qed.
Print Assumptions C28_boolean_refuted.
(** The search for connected constraints ends. *)
Theorem C28_search_ends : forall stack fs A, (forall v w, In v A -> In w A -> vid v = vid w -> v = w) ->
  (forall f, In f stack -> incl (fvF f) A) -> (forall f, In f fs -> incl (fvE f) A) ->
  exists q, mn_close (S (length stack)) stack (mn_xvars fs) [] = (Val q, []).
Proof. exact search_ends. Qed.
Print Assumptions C28_search_ends.
