(** * Optimization over the assertions of a history (C28) *)
From Coq Require Import ZArith Reals Lra Lia List Bool Arith.
From Flocq Require Import IEEE754.BinarySingleNaN.
From Verif Require Import Dbl DblProofs Syntax Sem SemProofs FormulaCons FormulaConsProofs Scoped Interval IntervalProofs MathConv MathConvProofs IEval Filter FilterProofs Contr Icp Theory StdInterp
  ExprAlg SpecAlg ExprAlgProofs SmtOcc SpecIte IteElim IteElimProofs Sat Context CtxStruct SpecCtx SpecWeak CtxSem CtxHom SpecFaith CtxFaith Minim SpecMin MinimProofs.
Import ListNotations.
Local Notation R := Rdefinitions.R.

(** ** The problem after Minimize *)
Lemma plan_zs uf rc fpow n fs stack b nx ys zs psi t : mn_plan fpow n fs stack b nx = (Val (ys, zs, psi), t) -> Forall (exact (std uf rc)) t ->
  forall z, In z zs -> vty z = CONTINUOUS /\ nx <= vid z.
Proof.
  intros E Ht. unfold mn_plan in E.
  apply bind_val in E. destruct E as ([xs cs] & t1 & t2 & E1 & E & ->). apply bind_val in E. destruct E as ([sub phi] & t3 & t4 & E2 & E & ->).
  apply bind_val in E. destruct E as (phi' & t5 & t6 & E3 & E & ->). apply bind_val in E. destruct E as ([[zb q] zs1] & t7 & t8 & E4 & E & ->).
  apply ret_val in E. destruct E as [E ->]. assert (zs = zs1) by congruence. subst zs1. rewrite app_nil_r in Ht.
  apply Forall_app in Ht. destruct Ht as [_ Ht]. apply Forall_app in Ht. destruct Ht as [_ Ht]. apply Forall_app in Ht. destruct Ht as [_ O4].
  destruct (objs_ok uf rc fpow n sub fs (nx + length xs) FTrue (mk_disj phi') zb q zs t7 E4 O4) as [Ez _].
  intros z Hz. rewrite Ez in Hz. apply in_map_iff in Hz. destruct Hz as (j & <- & Hj). apply in_seq in Hj. cbn [vty vid]. split; [reflexivity|lia].
Qed.
Definition psteps (ops : list cop) (st : problem * list problem) : problem * list problem := fold_left (fun st o => p_step o st) ops st.
Lemma news_problem ys st : psteps (map ONew ys) st = st.
Proof. revert st. induction ys as [|y ys IH]; intros [p ps]; [reflexivity|]. cbn [map psteps fold_left p_step]. apply IH. Qed.
Lemma decls_problem zs : forall p ps, exists q, psteps (flat_map (fun z => [ONew z; ODeclare z false]) zs) (p, ps) = (q, ps) /\ p_asserts q = p_asserts p /\
  (forall v d, In (v, d) (p_doms p) -> In (v, d) (p_doms q)) /\ forall v d, In (v, d) (p_doms q) -> In (v, d) (p_doms p) \/ (In v zs /\ d = dom0 (vty v)).
Proof.
  induction zs as [|z zs IH]; intros p ps; [exists p; repeat split; auto|]. cbn [flat_map app psteps fold_left p_step].
  destruct (IH (declare z p) ps) as (q & E & A & B & C). exists q. split; [exact E|]. split; [rewrite A; unfold declare; destruct (mem_var z _); reflexivity|]. split.
  - intros v d H. apply B. unfold declare. destruct (mem_var z _); [exact H|]. cbn [p_doms]. apply in_or_app. left. exact H.
  - intros v d H. destruct (C v d H) as [Y|[Y Z]]; [|right; split; [right; exact Y|exact Z]]. unfold declare in Y. destruct (mem_var z _); [left; exact Y|]. cbn [p_doms] in Y.
    apply in_app_or in Y. destruct Y as [Y|[Y|[]]]; [left; exact Y|]. injection Y as <- <-. right. split; [left; reflexivity|reflexivity].
Qed.
Lemma after_minimize p ps ys zs psi : exists q, psteps (mn_ops (ys, zs, psi)) (p, ps) = (q, ps) /\ p_asserts q = p_asserts p ++ [psi] /\
  (forall v d, In (v, d) (p_doms p) -> In (v, d) (p_doms q)) /\ forall v d, In (v, d) (p_doms q) -> In (v, d) (p_doms p) \/ (In v zs /\ d = dom0 (vty v)).
Proof.
  unfold mn_ops, psteps. rewrite !fold_left_app. fold (psteps (map ONew ys) (p, ps)). rewrite news_problem. destruct (decls_problem zs p ps) as (q & E & A & B & C). unfold psteps in E. rewrite E.
  cbn [fold_left p_step]. exists (add_assert psi q). split; [reflexivity|]. split; [cbn [add_assert p_asserts]; rewrite A; reflexivity|]. split; assumption.
Qed.

(** ** The box and the stack pose the problem of the assertions *)
Lemma faith_posed M D c b p fs : faith M b (sv_vec (cx_stack c)) p -> small c p -> posed_problem M D p fs -> posed M D b (sv_vec (cx_stack c)) fs (cx_next c).
Proof.
  intros F Sm (P1 & P2 & P3 & P4). pose proof (ft_vars _ _ _ _ F) as Fv. split; [apply F|]. split; [intros v Hv; apply Sm, Fv, Hv|].
  split; [intros v w Hv Hw; apply P1; apply Fv; assumption|]. split; [|split].
  - intros g Hg. destruct (ft_stk _ _ _ _ F g Hg) as (f & Hf & Cl). apply (Cl _ (closedP_occ _ _)).
    apply (occF_mono _ f (declared p)); [intros v Hv; apply Fv; exact Hv|]. apply (proj2 (occ_bound (fun _ => False) _ (fun v C => match C with end))). exact (P2 f Hf).
  - intros f Hf. apply (occE_mono _ f (declared p)); [intros v Hv; apply Fv; exact Hv|]. apply (proj1 (occ_bound (fun _ => False) _ (fun v C => match C with end))). exact (P3 f Hf).
  - intros rho W Ib. destruct (P4 rho W (ft_dom _ _ _ _ F rho Ib)) as [Q1 Q2]. split; [|exact Q2].
    intros g Hg. destruct (ft_stk _ _ _ _ F g Hg) as (f & Hf & Cl). exact (Cl _ (closed_def M D rho) (Q1 f Hf)).
Qed.
Lemma faith_feasible M b st p rho : faith M b st p -> (feasible M b st rho <-> satisfying M p rho).
Proof.
  intros F. unfold feasible, satisfying. split.
  - intros (W & H). split; [exact W|]. exact (proj1 (ft_sem _ _ _ _ F rho W) H).
  - intros (W & H). split; [exact W|]. exact (proj2 (ft_sem _ _ _ _ F rho W) H).
Qed.

Section Problem.
  Variables (uf : nat -> list R -> R) (rc : dbl -> dbl -> R) (fpow : dbl -> dbl -> dbl) (n : nat).
  Notation M := (std uf rc).
  Variables (fold : expr -> expr -> option dbl) (K : eops) (pico : pico_t) (T : nat -> box -> list formula -> option tres) (mid : dbl -> dbl -> dbl) (precision : dbl) (nx : nat).
  Hypothesis RC : rc_ok M.
  Variables (ops : list cop) (c : ctx) (a : list (option box)).
  Hypotheses (Ad : admissible M stdD fold K nx ops [] (p_empty, [])) (De : delta_ops fold ops (p_empty, [])) (Ex : Forall exact_op ops)
    (Run : cx_run fold K pico T mid precision ops (cx_init nx) = Some (c, a)).

  Lemma transfer (P : env -> Prop) fs mops t : minimize fpow n fs c = (Val mops, t) -> Forall (exact M) t -> posed_problem M stdD (current ops) [] ->
    (forall rho, satisfying M (current ops) rho -> ((exists rho1, agree_off (declared_by mops) rho rho1 /\ forall f, In (OAssert f) mops -> holds M f rho1) <-> P rho)) ->
    forall rho, (exists rho1, agree_off (declared_by mops) rho rho1 /\ satisfying M (current (ops ++ mops)) rho1) <-> satisfying M (current ops) rho /\ P rho.
  Proof.
    intros E Ht (_ & Oc & _) H rho. destruct (faithful M stdD fold K pico T mid precision nx RC ops c a Ad De Ex Run) as (b & Eb & F & Sm).
    unfold minimize in E. rewrite Eb in E. apply bind_val in E. destruct E as ([[ys zs] psi] & t1 & t2 & E & E2 & ->). apply ret_val in E2. destruct E2 as [-> ->].
    rewrite app_nil_r in Ht. pose proof (plan_zs uf rc fpow n fs _ b _ ys zs psi t1 E Ht) as Zs. rewrite mn_declared in *.
    assert (Ec : exists q, current (ops ++ mn_ops (ys, zs, psi)) = q /\ p_asserts q = p_asserts (current ops) ++ [psi] /\
      (forall v d, In (v, d) (p_doms (current ops)) -> In (v, d) (p_doms q)) /\ forall v d, In (v, d) (p_doms q) -> In (v, d) (p_doms (current ops)) \/ (In v zs /\ d = dom0 (vty v))).
    { unfold current at 1. rewrite fold_left_app. unfold current. destruct (fold_left _ ops (p_empty, [])) as [p ps]. cbn [fst]. destruct (after_minimize p ps ys zs psi) as (q & E1 & E2 & E3 & E4).
      unfold psteps in E1. rewrite E1. exists q. cbn [fst]. auto. }
    destruct Ec as (q & -> & Qa & Q1 & Q2).
    assert (Nz : forall v, declared (current ops) v -> ~ In v zs) by (intros v Hv Hz; specialize (Sm v Hv); destruct (Zs v Hz) as [_ L]; lia).
    assert (Sat : forall r r', agree_off zs r r' -> satisfying M (current ops) r -> satisfying M (current ops) r').
    { intros r r' Ag (W & Dm & As). split; [|split].
      - intros v. destruct (mem_var v zs) eqn:Hz; [apply mem_var_In in Hz|assert (Hz' : ~ In v zs) by (intros C; apply mem_var_In in C; congruence); clear Hz; rename Hz' into Hz]; [rewrite (proj1 (Zs v Hz)); exact Logic.I|rewrite (Ag v Hz); apply W].
      - intros v d Hd. rewrite (Ag v); [exact (Dm v d Hd)|]. apply Nz. apply in_map_iff. exists (v, d). auto.
      - intros f Hf. apply (holds_agree M f r r'); [|exact (As f Hf)]. intros v Hv. symmetry. apply Ag. apply Nz. exact (proj2 (occ_fv _) f _ (Oc f Hf) v Hv). }
    assert (Sym : forall r r', agree_off zs r r' -> agree_off zs r' r) by (intros r r' Ag v Hv; symmetry; exact (Ag v Hv)).
    split.
    - intros (rho1 & Ag & W & Dm & As).
      assert (S1 : satisfying M (current ops) rho1) by (split; [exact W|]; split; [intros v d Hd; exact (Dm v d (Q1 v d Hd))|intros f Hf; apply As; rewrite Qa; apply in_or_app; left; exact Hf]).
      pose proof (Sat rho1 rho (Sym _ _ Ag) S1) as S0. split; [exact S0|]. apply (H rho S0). exists rho1. split; [exact Ag|]. intros f Hf. apply mn_asserts in Hf. subst f.
      apply As. rewrite Qa. apply in_or_app. right. left. reflexivity.
    - intros [S0 Pr]. apply (H rho S0) in Pr. destruct Pr as (rho1 & Ag & Hp). exists rho1. split; [exact Ag|]. destruct (Sat rho rho1 Ag S0) as (W & Dm & As). split; [exact W|]. split.
      + intros v d Hd. destruct (Q2 v d Hd) as [Y|[Y ->]]; [exact (Dm v d Y)|]. rewrite (proj1 (Zs v Y)). exact Logic.I.
      + intros f Hf. rewrite Qa in Hf. apply in_app_or in Hf. destruct Hf as [Hf|[<-|[]]]; [exact (As f Hf)|]. apply Hp, mn_asserts. reflexivity.
  Qed.
  Lemma posed_none p fs : posed_problem M stdD p fs -> posed_problem M stdD p [].
  Proof. intros (P1 & P2 & P3 & P4). split; [exact P1|]. split; [exact P2|]. split; [intros f []|]. intros rho W Dm. split; [apply (P4 rho W Dm)|intros f []]. Qed.
  Theorem minimize_problem fs mops t : minimize fpow n fs c = (Val mops, t) -> Forall (exact M) t -> posed_problem M stdD (current ops) fs ->
    forall rho, (exists rho1, agree_off (declared_by mops) rho rho1 /\ satisfying M (current (ops ++ mops)) rho1) <-> satisfying M (current ops) rho /\ optimal M (current ops) fs rho.
  Proof.
    intros E Ht Po. apply (transfer _ fs mops t E Ht (posed_none _ _ Po)). intros rho S0.
    destruct (faithful M stdD fold K pico T mid precision nx RC ops c a Ad De Ex Run) as (b & Eb & F & Sm).
    rewrite (minimize_ctx uf rc fpow n fs c b mops t Eb E Ht (faith_posed M stdD c b _ fs F Sm Po) rho (proj2 (faith_feasible M b _ _ rho F) S0)).
    unfold undominated, optimal. split; intros H (r & Hr & L); apply H; exists r; (split; [|exact L]); apply (faith_feasible M b _ _ r F); exact Hr.
  Qed.
  Theorem maximize_problem f mops t : maximize fpow n f c = (Val mops, t) -> Forall (exact M) t -> posed_problem M stdD (current ops) [f] ->
    forall rho, (exists rho1, agree_off (declared_by mops) rho rho1 /\ satisfying M (current (ops ++ mops)) rho1) <->
      satisfying M (current ops) rho /\ ~ exists rho', satisfying M (current ops) rho' /\ (evalE M f rho' > evalE M f rho)%R.
  Proof.
    intros E Ht Po. pose proof E as E0. unfold maximize in E0. apply bind_val in E0. destruct E0 as (g & t1 & t2 & E1 & E2 & Et). subst t. pose proof Ht as Ht0. apply Forall_app in Ht0. destruct Ht0 as [O1 O2].
    apply (transfer _ [g] mops t2 E2 O2 (posed_none _ _ Po)). intros rho S0.
    destruct (faithful M stdD fold K pico T mid precision nx RC ops c a Ad De Ex Run) as (b & Eb & F & Sm).
    rewrite (maximize_ctx uf rc fpow n f c b mops _ Eb E Ht (faith_posed M stdD c b _ [f] F Sm Po) rho (proj2 (faith_feasible M b _ _ rho F) S0)).
    split; intros H (r & Hr & L); apply H; exists r; (split; [|exact L]); apply (faith_feasible M b _ _ r F); exact Hr.
  Qed.
End Problem.
