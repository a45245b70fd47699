(** Quantified formulas given to CheckSatisfiability (C44). *)
From Coq Require Import ZArith Reals List Bool.
From Verif Require Import Dbl Syntax Sem FormulaCons Interval Scoped Context MathConv IEval IEvalProofs Contr ContrProofs IbexConv IbexConvProofs Icp IcpProofs IcpPar Filter Theory TheoryUsed
  IteElim SpecIte Regular Wff Sat SpecCtx SpecModel CtxStruct SatSem CtxInv CtxTop Forall SpecForall SpecQuant QuantTop Api SpecApi SpecApiQ ApiProofs ApiTop.
Import ListNotations.

Section Wfv.
  Variables (q pv bq A : var -> Prop).
  Lemma wf_restrict_q : (forall e, wfE q pv bq e -> (forall v, In v (fvE e) -> A v) -> wfE (fun v => q v /\ A v) (fun v => pv v /\ A v) bq e) /\
    (forall f, wfF q pv bq f -> (forall v, In v (fvF f) -> A v) -> wfF (fun v => q v /\ A v) (fun v => pv v /\ A v) bq f).
  Proof.
    apply expr_formula_ind2; try (cbn [wfE wfF fvE fvF]; intros; auto; fail).
    - intros v H HA. cbn in *. auto.
    - intros c ts IH [Hc H] HA. cbn [wfE fvE] in *. split; [exact Hc|]. clear Hc. induction ts as [|[a k] ts IHt]; [exact I|]. cbn [fold_right] in *.
      inversion IH as [|? ? Ha IHl]; subst. destruct H as [[H1 H2] H3]. split; [split; [apply Ha; auto; intros; apply HA; cbn; rewrite in_app_iff; auto|exact H2]|].
      apply IHt; auto. intros v Hv. apply HA. cbn. rewrite in_app_iff. auto.
    - intros c ts IH [Hc H] HA. cbn [wfE fvE] in *. split; [exact Hc|]. clear Hc. induction ts as [|[a k] ts IHt]; [exact I|]. cbn [fold_right] in *.
      inversion IH as [|? ? [Ha Hk] IHl]; subst. destruct H as [[H1 H2] H3]. split; [split; [apply Ha|apply Hk]; auto; intros; apply HA; cbn; rewrite ?in_app_iff; auto|].
      apply IHt; auto. intros v Hv. apply HA. cbn. rewrite ?in_app_iff. auto.
    - intros o a b Ha Hb [H1 H2] HA. cbn [wfE fvE] in *. split; [apply Ha|apply Hb]; auto; intros; apply HA; rewrite in_app_iff; auto.
    - intros f a b Hf Ha Hb (H0 & H1 & H2) HA. cbn [wfE fvE] in *. split; [apply Hf|split; [apply Ha|apply Hb]]; auto; intros; apply HA; rewrite !in_app_iff; auto.
    - intros v H HA. cbn in *. auto.
    - intros o a b Ha Hb [H1 H2] HA. cbn [wfF fvF] in *. split; [apply Ha|apply Hb]; auto; intros; apply HA; rewrite in_app_iff; auto.
    - intros fs IH H HA. cbn [wfF fvF] in *. induction fs as [|g fs IHt]; [exact I|]. cbn [fold_right] in *. inversion IH as [|? ? Ha IHl]; subst. destruct H as [H1 H3].
      split; [apply Ha; auto; intros; apply HA; cbn; rewrite in_app_iff; auto|]. apply IHt; auto. intros v Hv. apply HA. cbn. rewrite in_app_iff. auto.
    - intros fs IH H HA. cbn [wfF fvF] in *. induction fs as [|g fs IHt]; [exact I|]. cbn [fold_right] in *. inversion IH as [|? ? Ha IHl]; subst. destruct H as [H1 H3].
      split; [apply Ha; auto; intros; apply HA; cbn; rewrite in_app_iff; auto|]. apply IHt; auto. intros v Hv. apply HA. cbn. rewrite in_app_iff. auto.
    - intros vs g IH [H1 H2] HA. cbn [wfF fvF] in *. split; [exact H1|]. apply (WffProofs.body_mono _ _ _ H2). intros v Hv [Hq|Hi]; [|right; exact Hi].
      destruct (mem_var v vs) eqn:Em; [right; now apply mem_var_In|]. left. split; [exact Hq|]. apply HA, filter_In. split; [exact Hv|]. now rewrite Em.
  Qed.
End Wfv.
Section Adm.
  Variables (M : interp) (D : pdom) (fold : expr -> expr -> option dbl) (K : eops).
  Lemma declares_adm_q nx l : forall p news ops, (forall v, In v l -> vid v < nx) ->
    (forall p', (forall v, declared p v \/ In v l -> declared p' v) -> admissible_q M D fold K nx True ops news (p', [])) ->
    admissible_q M D fold K nx True (map (fun v => ODeclare v true) l ++ ops) news (p, []).
  Proof.
    induction l as [|v l IH]; intros p news ops H HP; cbn [map app admissible_q]. { apply HP; auto. intros v [X|[]]. exact X. }
    split; [left; apply H; left; reflexivity|]. cbn [news_step p_step fst]. apply IH; [intros w Hw; apply H; right; exact Hw|].
    intros p' H1. apply HP.
    intros w [X|[<-|X]]; apply H1; auto; left; unfold declare, declared in *; destruct (mem_var v (map fst (p_doms p))) eqn:Em; auto; cbn [p_doms]; rewrite ?map_app, ?in_app_iff; cbn; auto. now apply mem_var_In.
  Qed.
  Theorem check_adm_q f nx fuel : fresh_ids (fvF f) nx -> q_formula nx f -> ite_exact M D fold K f ->
    admissible_q M D fold K nx True (declare_all (fvF f) ++ [OAssert f; OCheck fuel]) [] (p_empty, []).
  Proof.
    intros HF Hq Hi. apply declares_adm_q. { intros v Hv. apply (vs_of_in _ nx HF) in Hv. now apply HF. }
    intros p' H1. cbn [admissible_q]. split; [|split; exact I]. cbn [fst op_ok_q]. split; [|exact Hi].
    pose proof (proj2 (wf_restrict_q _ _ _ (fun v => In v (fvF f))) f Hq (fun v Hv => Hv)) as W.
    refine (proj2 (WffProofs.wf_mono _ _ _ _ _ _ _ _ _) f W); cbn beta; [| |intros v Hv; split; [exact I|left; exact Hv]]; intros v [A B]; (split; [|exact A]); apply H1; right; apply (vs_of_in _ nx HF); exact B.
  Qed.
End Adm.
Theorem api_unsat_q : forall M D fold K pico mid f precision nx fuel T, fresh_ids (fvF f) nx ->
  (forall ops c a, cx_run fold K pico (T precision) mid precision ops (cx_init nx) = Some (c, a) -> ops = declare_all (fvF f) ++ [OAssert f; OCheck fuel] ->
    Forall2 (fun q r => r = None -> ~ exists rho, solution M D q rho) (problems ops (p_empty, [])) a) ->
  api_check fold K pico T mid f precision nx fuel = Some None -> ~ exists rho, satisfies M D f rho.
Proof.
  intros M D fold K pico mid f precision nx fuel T HF U E.
  destruct (check_run _ _ _ _ _ _ _ _ _ _ E) as (c & Er). destruct (check_problem f nx fuel HF) as (p & Ep & [P1 P2]). specialize (U _ c _ Er eq_refl).
  rewrite Ep in U. inversion U as [|? ? ? ? Hn _]; subst. intros (rho & W & Dm & Rg & Hh). apply (Hn eq_refl). exists rho. split; [exact W|]. split.
  - intros v d Hv. apply P1 in Hv. destruct Hv as [Hv ->]. auto.
  - intros g Hg. rewrite P2 in Hg. destruct Hg as [<-|[]]. auto.
Qed.
