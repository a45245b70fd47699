(** The library interface and .dr problems on top of the theorems on the context (C44, C46). *)
From Coq Require Import ZArith Reals Lra Lia List Bool.
From Flocq Require Import IEEE754.BinarySingleNaN.
From Verif Require Import Dbl Syntax Sem Interval IEval IEvalProofs StdInterp MathConv SpecForm PredAbs ExprAlg SpecAlg Contr ContrProofs IbexConv IbexConvProofs Icp IcpProofs Filter Theory TheoryUsed Regular Wff IteElim SpecIte
  Sat SatSem Scoped Context CtxStruct SpecCtx CtxInv CtxTop SpecModel SpecWeak CtxModelTop CtxDelta CtxDeltaInv Minim SpecMin MinimProofs Dr SpecDr DrProofs Api SpecApi ApiProofs.
Import ListNotations.
Local Notation R := Rdefinitions.R.

Theorem check_history : forall fold K pico T mid f precision nx fuel r, api_check fold K pico T mid f precision nx fuel = Some r -> fresh_ids (fvF f) nx ->
  exists ops c p, cx_run fold K pico (T precision) mid precision ops (cx_init nx) = Some (c, [r]) /\ problems ops (p_empty, []) = [p] /\ poses p (fvF f) [f].
Proof.
  intros. destruct (check_run _ _ _ _ _ _ _ _ _ _ H) as (c & E). destruct (check_problem f nx fuel H0) as (p & H1 & H2). eexists _, c, p. split; [exact E|]. split; [exact H1|exact H2].
Qed.
Theorem api_unsat : forall M D fold esub eneg m A L fa term pn mid precision use_worklist k left_first K pico f nx fuel,
  rc_ok M -> mid_ok mid -> ibex_ok M D L -> eneg_faithful M D eneg -> sqrt_ok M D -> ia_ok M D A -> esub_ok M D esub -> pico_ok pico ->
  fresh_ids (fvF f) nx -> qf_formula f -> ite_exact M D fold K f -> (use_worklist = true -> forall v, In v (fvF f) -> is_int_type (vty v) = false) ->
  api_check fold K pico (fun precision => solver_seq esub eneg m (ibex_oracles L esub eneg m fa) term pn (rel_eval A esub) mid precision use_worklist k left_first) mid f precision nx fuel = Some None ->
  ~ exists rho, satisfies M D f rho.
Proof.
  intros M D fold esub eneg m A L fa term pn mid precision wl k lf K pico f nx fuel RC Hm HL HN HS HA HD HP HF Hq Hi Hw E.
  destruct (check_run _ _ _ _ _ _ _ _ _ _ E) as (c & Er). destruct (check_problem f nx fuel HF) as (p & Ep & [P1 P2]).
  pose proof (unsat_top M D fold mid precision wl RC K pico nx _ HP (T_seq M D fold esub eneg m A L fa term pn mid precision wl RC Hm HL HN HS HA HD k lf) _ c _ Er
    (check_adm M D fold K f nx fuel HF Hq Hi) (check_ints wl f nx fuel HF Hw)) as U.
  rewrite Ep in U. inversion U as [|? ? ? ? Hn _]; subst. intros (rho & W & Dm & Rg & Hh). apply (Hn eq_refl). exists rho. split; [exact W|]. split.
  - intros v d Hv. apply P1 in Hv. destruct Hv as [Hv ->]. auto.
  - intros g Hg. rewrite P2 in Hg. destruct Hg as [<-|[]]. auto.
Qed.
Theorem api_delta : forall M D fold esub eneg m A L fa term pn mid precision use_worklist k left_first K pico f nx fuel b,
  rc_ok M -> mid_ok mid -> ibex_ok M D L -> eneg_faithful M D eneg -> sqrt_ok M D -> ia_ok M D A -> esub_ok M D esub -> pico_ok pico ->
  is_finite precision = true -> (0 < B2R precision)%R ->
  fresh_ids (fvF f) nx -> qf_formula f -> ite_exact M D fold K f -> (use_worklist = true -> forall v, In v (fvF f) -> is_int_type (vty v) = false) ->
  hasIteF f = false -> unfolded fold f -> f <> FFalse ->
  api_check fold K pico (fun precision => solver_seq esub eneg m (ibex_oracles L esub eneg m fa) term pn (rel_eval A esub) mid precision use_worklist k left_first) mid f precision nx fuel = Some (Some b) ->
  exists p, poses p (fvF f) [f] /\ delta_ok M D mid precision p (Some b).
Proof.
  intros M D fold esub eneg m A L fa term pn mid precision wl k lf K pico f nx fuel b RC Hm HL HN HS HA HD HP Fp Pp HF Hq Hi Hw Hni Hu Hff E.
  destruct (check_run _ _ _ _ _ _ _ _ _ _ E) as (c & Er). destruct (check_problem f nx fuel HF) as (p & Ep & P).
  pose proof (delta_top M D fold mid precision wl RC Hm K pico nx _ HP (T_seq M D fold esub eneg m A L fa term pn mid precision wl RC Hm HL HN HS HA HD k lf)
      (T_box_seq M D fold esub eneg m A L fa term pn mid precision wl RC Hm HL HN HS HA HD k lf)
      (T_weak_seq M D fold esub eneg m A L fa term pn mid precision wl RC Hm HL HN HS HA HD Fp Pp k lf) Fp Pp _ c _ Er
    (check_adm M D fold K f nx fuel HF Hq Hi) (check_ints wl f nx fuel HF Hw) (check_delta fold f fuel Hni Hu Hff)) as U.
  pose proof (checks_problems (declare_all (fvF f) ++ [OAssert f; OCheck fuel]) (p_empty, []) []) as Cp. rewrite Ep in Cp.
  destruct (checks _ _ _) as [|q [|? ?]]; cbn [map] in Cp; try discriminate Cp. injection Cp as Cq. inversion U as [|? ? ? ? Hd _]; subst. exists (fst q). auto.
Qed.
Theorem api_minimize_ok : forall fold K pico T mid uf rc fpow n g f precision nx fuel r t, let M := std uf rc in
  api_minimize fold K pico T mid fpow n g f precision nx fuel = (Val (Some r), t) -> Forall (exact M) t -> fresh_ids (fvF f ++ fvE g) nx ->
  exists ops c b mops c', cx_run fold K pico (T precision) mid precision ops (cx_init nx) = Some (c, []) /\ cx_box c = Some b /\
    cx_run fold K pico (T precision) mid precision (ops ++ mops ++ [OCheck fuel]) (cx_init nx) = Some (c', [r]) /\
    (exists p, poses p (fvF f ++ fvE g) [f] /\ forall rest, problems (ops ++ rest) (p_empty, []) = problems rest (p, [])) /\
    (posed M stdD b (sv_vec (cx_stack c)) [g] (cx_next c) -> forall rho, feasible M b (sv_vec (cx_stack c)) rho ->
      ((exists rho1, agree_off (declared_by mops) rho rho1 /\ forall f, In (OAssert f) mops -> holds M f rho1) <-> undominated M b (sv_vec (cx_stack c)) [g] rho)).
Proof.
  intros fold K pico T mid uf rc fpow n g f precision nx fuel r t M E Ht HF. destruct (minimize_run _ _ _ _ _ _ _ _ _ _ _ _ _ _ E) as (c & mops & c' & E1 & E2 & E3).
  destruct (cx_box c) as [b|] eqn:Eb; [|unfold minimize in E2; rewrite Eb in E2; discriminate].
  eexists _, c, b, mops, c'. split; [exact E1|]. split; [exact Eb|]. split; [exact E3|]. split.
  - exact (minimize_problem_all g f nx HF).
  - intros P. exact (minimize_ctx uf rc fpow n [g] c b mops t Eb E2 Ht P).
Qed.
Theorem dr_unsat_printed : forall uf rc fpow n evl fold esub eneg m A L fa term pn mid precision use_worklist k left_first K pico eval d models nx fuel t, let M := std uf rc in
  rc_ok M -> mid_ok mid -> ibex_ok M stdD L -> eneg_faithful M stdD eneg -> sqrt_ok M stdD -> ia_ok M stdD A -> esub_ok M stdD esub -> pico_ok pico ->
  dr_cost d = [] -> dr_run fpow n evl fold K pico (solver_seq esub eneg m (ibex_oracles L esub eneg m fa) term pn (rel_eval A esub) mid precision use_worklist k left_first) mid precision eval d models nx fuel = (Val (Some [OutUnsat]), t) ->
  Forall (exact M) t -> (forall ops gs t', dr_calls fpow n evl d nx = (Val (ops, gs), t') -> admissible M stdD fold K nx (ops ++ [OCheck fuel]) [] (p_empty, [])) ->
  exists bs, Forall2 (fun dd b => bound_is M stdD evl (dr_vars d) nx (dd_lb dd) (fst b) /\ bound_is M stdD evl (dr_vars d) nx (dr_ub dd) (snd b)) (dr_vars d) bs /\
  ~ exists V, dr_solution M stdD d bs V /\ forall rho ops gs t' f, dr_reads (dr_vars d) nx V rho -> dr_calls fpow n evl d nx = (Val (ops, gs), t') -> In (OAssert f) ops -> regular M stdD f rho.
Proof.
  intros uf rc fpow n evl fold esub eneg m A L fa term pn mid precision wl k lf K pico eval d models nx fuel t M RC Hm HL HN HS HA HD HP Hc E Ht Ad.
  destruct (solve_plain _ _ _ _ _ _ _ _ _ _ _ _ _ _ _ _ Hc E) as (ops & c & r & E0 & E1 & E2). pose proof (proj2 E2 eq_refl) as Er. subst r.
  assert (Io : ints_ok wl (ops ++ [OCheck fuel])).
  { destruct (calls_ok uf rc fpow n evl d nx ops [] t E0 Ht) as (bs & fs & -> & _). intros _ o v Ho Eo.
    assert (X : forall bs nx, In o (decl_ops bs nx) -> is_int_type (vty v) = false).
    { clear - Eo. induction bs as [|[l u] bs IH]; intros nx Ho; [destruct Ho|]. destruct Ho as [<-|[<-|Ho]]; [destruct Eo|subst v; reflexivity|eauto]. }
    apply in_app_iff in Ho. destruct Ho as [Ho|[<-|[]]]; [|destruct Eo]. apply in_app_iff in Ho. destruct Ho as [Ho|Ho]; [eauto|]. apply in_map_iff in Ho. destruct Ho as (f & <- & _). destruct Eo. }
  pose proof (unsat_top M stdD fold mid precision wl RC K pico nx _ HP (T_seq M stdD fold esub eneg m A L fa term pn mid precision wl RC Hm HL HN HS HA HD k lf) _ c _ E1 (Ad _ _ _ E0) Io) as U.
  destruct (dr_unsat uf rc fpow n evl d nx ops [] t None fuel E0 Ht U eq_refl) as (bs & HB & HV). exists bs. split; [exact HB|]. intros (V & S1 & S2). apply HV. exists V. split; [exact S1|].
  intros rho f HR Hf. apply (S2 rho ops [] t f HR E0 Hf).
Qed.
