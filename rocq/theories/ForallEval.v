(** * What VALID means for a quantified constraint (behind C32) *)
From Coq Require Import ZArith Reals Lra Lia List Bool Arith Classical.
From Flocq Require Import IEEE754.BinarySingleNaN.
From Verif Require Import Dbl DblProofs Syntax Sem SemProofs FormulaCons SpecForm Nnf PredAbs
  Scoped Interval IntervalProofs MathConv IEval IEvalProofs Contr IbexConv IbexConvProofs Icp IcpProofs IcpTop Filter Theory VarSet
  IteElim SpecIte Regular Wff Sat Context SatSem SpecCtx CtxBox CtxSem CtxRun CtxInv CtxTop CtxSat ExprAlg SpecAlg AlgTop StdInterp DeltaStr Forall SpecForall DrProofs SpecApi VarSetProofs MinimProofs ApiProofs.
Import ListNotations.
Local Notation R := Rdefinitions.R.

(** ** The calls made by a sequence of evaluations, and the problems they pose *)
Definition psteps (ops : list cop) (st : problem * list problem) : problem * list problem := fold_left (fun s o => p_step o s) ops st.
Definition fe_calls (fuel : nat) (bs : list box) : list cop := flat_map (fun b => inner_query b fuel) bs.
Lemma probs_app a b st : problems (a ++ b) st = problems a st ++ problems b (psteps a st).
Proof. revert st. induction a as [|o a IH]; intros st; [reflexivity|]. destruct o; cbn [app problems]; rewrite IH; reflexivity. Qed.
Lemma psteps_app a b st : psteps (a ++ b) st = psteps b (psteps a st).
Proof. apply fold_left_app. Qed.
Lemma adm_app M D fold K n a b : forall news st, admissible M D fold K n (a ++ b) news st <-> admissible M D fold K n a news st /\ admissible M D fold K n b (fold_left (fun l o => news_step o l) a news) (psteps a st).
Proof.
  induction a as [|o a IH]; intros news st; cbn [app admissible fold_left admissible_q]; [tauto|]. rewrite IH. unfold psteps. cbn [fold_left]. tauto.
Qed.

Section Eval.
  Variables (fold : expr -> expr -> option dbl) (K : eops) (pico : pico_t) (T : nat -> box -> list formula -> option tres) (mid : dbl -> dbl -> dbl) (precision : dbl).
  Notation run := (cx_run fold K pico T mid precision).
  Lemma evals_run ev f fuel bs : forall c c' rs, fe_evals fold K pico T mid precision ev f fuel bs c = Some (c', rs) ->
    exists ans, run (fe_calls fuel bs) c = Some (c', ans) /\ Forall2 (fun r a => fst r = VALID -> a = None) rs ans.
  Proof.
    induction bs as [|b bs IH]; intros c c' rs E; cbn [fe_evals] in E.
    - assert (X : c = c' /\ rs = []) by (split; congruence). destruct X as [<- ->]. exists []. split; [reflexivity|constructor].
    - destruct (fe_eval fold K pico T mid precision ev f fuel b c) as [[c1 r]|] eqn:E1; cbn [IEval.bind fst snd] in E; [|discriminate].
      destruct (fe_evals fold K pico T mid precision ev f fuel bs c1) as [[c2 rs2]|] eqn:E2; cbn [IEval.bind fst snd] in E; [|discriminate].
      assert (X : c2 = c' /\ rs = r :: rs2) by (split; congruence). destruct X as [-> ->]. destruct (IH c1 c' rs2 E2) as (ans & Ea & Fa).
      unfold fe_eval in E1. destruct (run (inner_query b fuel) c) as [[c3 a3]|] eqn:E3; [|discriminate].
      destruct a3 as [|[md|] [|a4 a5]]; try discriminate.
      + destruct (fe_diam ev (fe_disjuncts f) (overwrite b md) dzero) as [d|]; cbn [IEval.bind] in E1; [|discriminate].
        assert (X : c3 = c1 /\ r = (UNKNOWN, mk_ival dzero d)) by (split; congruence). destruct X as [-> ->]. exists ([Some md] ++ ans). split.
        * unfold fe_calls. cbn [flat_map]. rewrite cx_run_app, E3. unfold fe_calls in Ea. rewrite Ea. reflexivity.
        * constructor; [discriminate|exact Fa].
      + assert (X : c3 = c1 /\ r = (VALID, mk_ival dzero dzero)) by (split; congruence). destruct X as [-> ->]. exists ([None] ++ ans). split.
        * unfold fe_calls. cbn [flat_map]. rewrite cx_run_app, E3. unfold fe_calls in Ea. rewrite Ea. reflexivity.
        * constructor; [auto|exact Fa].
  Qed.
End Eval.

(** The domains of [vs] are given by [dm]. *)
Definition with_doms (vs : list var) (dm : var -> R -> Prop) (fs : list formula) : problem := {| p_doms := map (fun v => (v, dm v)) vs; p_asserts := fs |}.
Lemma set_with v d vs dm fs : set_domain v d (with_doms vs dm fs) = with_doms vs (fun w => if var_eqb v w then d else dm w) fs.
Proof.
  unfold set_domain, with_doms. cbn [p_doms p_asserts]. f_equal. rewrite map_map. apply map_ext. intros w. cbn [fst]. destruct (var_eqb v w) eqn:E; [apply var_eqb_eq in E; subst; reflexivity|reflexivity].
Qed.
Lemma with_ext vs dm dm' fs : (forall v, In v vs -> dm v = dm' v) -> with_doms vs dm fs = with_doms vs dm' fs.
Proof. intros H. unfold with_doms. f_equal. apply map_ext_in. intros v Hv. rewrite (H v Hv). reflexivity. Qed.
Lemma declares_with l : forall vs, NoDup (vs ++ l) -> psteps (map (fun v => ODeclare v true) l) (with_doms vs default_dm [], []) = (with_doms (vs ++ l) default_dm [], []).
Proof.
  induction l as [|v l IH]; intros vs Nd; cbn [map psteps fold_left]; [rewrite app_nil_r; reflexivity|]. cbn [p_step].
  assert (E : declare v (with_doms vs default_dm []) = with_doms (vs ++ [v]) default_dm []).
  { unfold declare. cbn [with_doms p_doms p_asserts]. rewrite map_map. cbn [fst]. rewrite map_id. destruct (mem_var v vs) eqn:Em.
    - apply mem_var_In in Em. exfalso. apply NoDup_remove_2 in Nd. apply Nd, in_or_app. left. exact Em.
    - unfold with_doms. rewrite map_app. reflexivity. }
  rewrite E. fold (psteps (map (fun v => ODeclare v true) l) (with_doms (vs ++ [v]) default_dm [], [])). rewrite IH by (rewrite <- app_assoc; exact Nd). rewrite <- app_assoc. reflexivity.
Qed.
Definition sets_of (b : box) (l : list var) : list cop := map (fun v => OSetInterval v (ilb (b_getv b v)) (iub (b_getv b v))) l.
Lemma sets_with b l : forall vs dm fs, NoDup l -> psteps (sets_of b l) (with_doms vs dm fs, []) = (with_doms vs (box_dm l b dm) fs, []).
Proof.
  induction l as [|v l IH]; intros vs dm fs Nd; cbn [sets_of map psteps fold_left]; [reflexivity|]. inversion Nd; subst. cbn [p_step]. rewrite set_with.
  fold (sets_of b l). fold (psteps (sets_of b l) (with_doms vs (fun w => if var_eqb v w then between (ilb (b_getv b v)) (iub (b_getv b v)) else dm w) fs, [])). rewrite IH by assumption. f_equal. apply with_ext. intros w _. unfold box_dm.
  change (mem_var w (v :: l)) with (var_eqb w v || mem_var w l). destruct (mem_var w l) eqn:Em; [rewrite orb_true_r; reflexivity|]. rewrite orb_false_r. destruct (var_eqb v w) eqn:Ev.
  - apply var_eqb_eq in Ev. subst w. rewrite (proj2 (var_eqb_eq v v) eq_refl). reflexivity.
  - destruct (var_eqb w v) eqn:Ew; [apply var_eqb_eq in Ew; subst; rewrite (proj2 (var_eqb_eq v v) eq_refl) in Ev; discriminate|reflexivity].
Qed.
Lemma f2_impl {X Y} (P Q : X -> Y -> Prop) l m : (forall x y, P x y -> Q x y) -> Forall2 P l m -> Forall2 Q l m.
Proof. intros H F. induction F; constructor; auto. Qed.

(** ** Nested boxes *)
Section Nested.
  Variables (M : interp) (D : pdom) (fold : expr -> expr -> option dbl) (K : eops) (n : nat).
  Notation adm := (admissible M D fold K n).
  Lemma with_declared vs dm fs v : declared (with_doms vs dm fs) v <-> In v vs.
  Proof. unfold declared, with_doms. cbn [p_doms]. rewrite map_map. cbn [fst]. rewrite map_id. apply iff_refl. Qed.
  Lemma sets_adm b vs fs l : NoDup l -> incl l vs -> (forall v, In v l -> dom_ok v (ilb (b_getv b v)) (iub (b_getv b v))) ->
    forall (dm : var -> R -> Prop) news, (forall v x, In v l -> between (ilb (b_getv b v)) (iub (b_getv b v)) x -> dm v x) -> adm (sets_of b l) news (with_doms vs dm fs, []).
  Proof.
    induction l as [|v l IH]; intros Nd Hi Ok dm news Hd; cbn [sets_of map admissible admissible_q]; [exact Logic.I|]. inversion Nd; subst. split.
    - cbn [op_ok fst op_ok_q]. split; [apply with_declared, Hi; left; reflexivity|]. split; [|apply Ok; left; reflexivity].
      right. intros d x Hin Hx. unfold with_doms in Hin. cbn [p_doms] in Hin. apply in_map_iff in Hin. destruct Hin as (w & E & _). assert (X : w = v /\ dm w = d) by (split; congruence). destruct X as [-> <-].
      apply Hd; [left; reflexivity|exact Hx].
    - cbn [p_step news_step]. rewrite set_with. fold (sets_of b l). apply IH; auto; [intros x Hx; apply Hi; right; exact Hx|intros w Hw; apply Ok; right; exact Hw|].
      intros w x Hw Hx. destruct (var_eqb v w) eqn:E; [apply var_eqb_eq in E; subst; contradiction|]. apply Hd; [right; exact Hw|exact Hx].
  Qed.
  Lemma calls_with fuel vs fs bs : forall dm news, nested vs dm bs -> adm (fe_calls fuel bs) news (with_doms vs dm fs, []) /\
    exists dms, problems (fe_calls fuel bs) (with_doms vs dm fs, []) = map (fun d => with_doms vs d fs) dms /\
      Forall2 (fun b d => forall v x, (In v (bvars b) -> d v x <-> between (ilb (b_getv b v)) (iub (b_getv b v)) x) /\ (~ In v (flat_map bvars bs) -> d v x <-> dm v x)) bs dms.
  Proof.
    induction bs as [|b bs IH]; intros dm news Hn; cbn [fe_calls flat_map].
    - split; [exact Logic.I|]. exists []. split; [reflexivity|constructor].
    - cbn [nested] in Hn. destruct Hn as (Nd & Hi & Ok & Hd & Hn). fold (fe_calls fuel bs). unfold inner_query. change (inner_sets b) with (sets_of b (bvars b)).
      destruct (IH (box_dm (bvars b) b dm) (fold_left (fun l o => news_step o l) (sets_of b (bvars b) ++ [OCheck fuel]) news) Hn) as (A1 & dms & P1 & F1). split.
      + rewrite adm_app. split.
        * rewrite adm_app. split; [apply sets_adm; auto|]. cbn [admissible op_ok admissible_q op_ok_q]. auto.
        * rewrite psteps_app, sets_with by exact Nd. exact A1.
      + exists (box_dm (bvars b) b dm :: dms). split.
        * rewrite probs_app, psteps_app, sets_with by exact Nd. cbn [psteps fold_left p_step]. rewrite P1.
          rewrite probs_app, sets_with by exact Nd. cbn [problems fst map]. assert (E : problems (sets_of b (bvars b)) (with_doms vs dm fs, []) = []).
          { clear. generalize (with_doms vs dm fs, @nil problem). induction (bvars b) as [|v l IHl]; intros st; [reflexivity|]. cbn [sets_of map problems]. apply IHl. }
          rewrite E. reflexivity.
        * constructor.
          -- intros v x. unfold box_dm. split; intros Hv.
             ++ rewrite (proj2 (mem_var_In v _) Hv). apply iff_refl.
             ++ destruct (mem_var v (bvars b)) eqn:Em; [|apply iff_refl]. apply mem_var_In in Em. exfalso. apply Hv. cbn [flat_map]. apply in_or_app. left. exact Em.
          -- revert F1. apply f2_impl. intros b' d H v x. destruct (H v x) as [H1 H2]. split; [exact H1|]. intros Hv. cbn [flat_map] in Hv.
             rewrite H2 by (intros C; apply Hv, in_or_app; right; exact C). unfold box_dm. destruct (mem_var v (bvars b)) eqn:Em; [|apply iff_refl]. apply mem_var_In in Em. exfalso. apply Hv, in_or_app. left. exact Em.
  Qed.
End Nested.

(** ** VALID *)
Lemma not_slack M d f rho : ~ slack M d (mk_not f) rho -> slack M (- d) f rho.
Proof.
  intros H. destruct f; cbn [mk_not slack] in *; try (apply NNPP; exact H); try tauto.
  intros C. rewrite Ropp_involutive in C. exact (H C).
Qed.
Lemma fe_setup_ops fpow n k qs g eps ops t : fe_setup fpow n k (FForall qs g) eps = (Val ops, t) ->
  exists h, DeltaStrengthen fpow n k (mk_not g) eps = (Val h, t) /\ ops = map (fun v => ODeclare v true) (vs_of (fvF (FForall qs g)) ++ qs) ++ [OAssert h].
Proof.
  unfold fe_setup. cbn [q_vars q_body]. unfold ExprAlg.bind. destruct (DeltaStrengthen fpow n k (mk_not g) eps) as [[h| | |] t1]; cbn; try discriminate. intros E.
  exists h. rewrite app_nil_r in E. rewrite map_app, <- app_assoc. split; congruence.
Qed.
Lemma f2_app_l {X Y} (P : X -> Y -> Prop) l1 l2 m : Forall2 P (l1 ++ l2) m -> l1 = [] -> Forall2 P l2 m.
Proof. intros H ->. exact H. Qed.
Lemma f2_four {X Y Z W V} (P : X -> Y -> Prop) (w : Y -> Z) (Q : Z -> W -> Prop) (E : V -> W -> Prop) (F : X -> V -> Prop) bs : forall dms ans rs,
  Forall2 P bs dms -> Forall2 Q (map w dms) ans -> Forall2 E rs ans -> (forall b d a r, In b bs -> P b d -> Q (w d) a -> E r a -> F b r) -> Forall2 F bs rs.
Proof.
  induction bs as [|b bs IH]; intros dms ans rs H1 H2 H3 H; inversion H1; subst; cbn [map] in H2; inversion H2; subst; inversion H3; subst; constructor.
  - eapply H; eauto. left. reflexivity.
  - eapply IH; eauto. intros b0 d a r Hin. apply H. right. exact Hin.
Qed.

Section Top.
  Variables (uf : nat -> list R -> R) (rc : dbl -> dbl -> R) (fold : expr -> expr -> option dbl) (mid : dbl -> dbl -> dbl) (precision : dbl) (wl : bool).
  Notation M := (std uf rc).
  Hypothesis RC : rc_ok M.
  Variables (K : eops) (pico : pico_t) (T : nat -> box -> list formula -> option tres) (nx : nat).
  Hypothesis HP : pico_ok pico.
  Hypothesis HT : T_sound M stdD fold T False (fun _ => True) (fun v => wl = true -> is_int_type (vty v) = false).
  Theorem fe_top fpow n k ev qs g eps h t ops c0 c1 bs fuel rs : is_finite eps = true -> (0 < B2R eps)%R -> hasIteF g = false -> NoDup qs -> fresh_ids (fvF (FForall qs g)) nx ->
    fe_setup fpow n k (FForall qs g) eps = (Val ops, t) -> DeltaStrengthen fpow n k (mk_not g) eps = (Val h, t) -> Forall (exact M) t ->
    cx_run fold K pico T mid precision ops (cx_init nx) = Some (c0, []) -> admissible M stdD fold K nx ops [] (p_empty, []) -> ints_ok wl ops ->
    (forall b, In b bs -> box_ok b /\ forall v, In v (bvars b) <-> In v (fvF (FForall qs g))) -> nested (fvF (FForall qs g)) default_dm bs ->
    fe_evals fold K pico T mid precision ev (FForall qs g) fuel bs c0 = Some (c1, rs) ->
    Forall2 (fun b r => fst r = VALID -> forall rho, well_typed rho -> in_box rho b -> (forall q, In q qs -> dom0 (vty q) (rho q)) -> defF M stdD g rho -> regular M stdD h rho ->
      slack M (- B2R eps) g rho) bs rs.
  Proof.
    intros Fe Pe Hi Nq Fi Es Ed Ht Er Ad Io Hb Hn E. destruct (fe_setup_ops _ _ _ _ _ _ _ _ Es) as (h' & Ed' & Eo). assert (h' = h) by congruence. subst h'. clear Ed'.
    destruct (evals_run fold K pico T mid precision ev _ fuel bs c0 c1 rs E) as (ans & Ea & Fa).
    set (fv := vs_of (fvF (FForall qs g))) in *.
    assert (Iv : forall v, In v fv <-> In v (fvF (FForall qs g))) by (exact (vs_of_in _ nx Fi)).
    assert (Nd : NoDup (fv ++ qs)).
    { assert (Dj : forall v, In v fv -> ~ In v qs). { intros v Hv Hq. apply Iv in Hv. cbn [fvF] in Hv. apply filter_In in Hv. destruct Hv as [_ Hv]. rewrite (proj2 (mem_var_In v qs) Hq) in Hv. discriminate. }
      pose proof (sorted_nodup _ (proj1 (vs_of_spec (fvF (FForall qs g))))) as Nf. fold fv in Nf. clearbody fv. clear - Dj Nf Nq. induction Nf as [|v l Hv Nf IH]; [exact Nq|]. cbn [app]. constructor.
      - intros C. apply in_app_or in C. destruct C as [C|C]; [exact (Hv C)|exact (Dj v (or_introl eq_refl) C)].
      - apply IH. intros w Hw. apply Dj. right. exact Hw. }
    assert (Hn' : nested (fv ++ qs) default_dm bs).
    { clear - Hn Iv. revert Hn. generalize default_dm. induction bs as [|b bs IH]; intros dm Hn; [exact Logic.I|]. cbn [nested] in *. destruct Hn as (A1 & A2 & A3 & A4 & A5).
      split; [exact A1|]. split; [intros v Hv; apply in_or_app; left; apply Iv, A2, Hv|]. split; [exact A3|]. split; [exact A4|]. apply IH. exact A5. }
    assert (Ps : psteps ops (p_empty, []) = (with_doms (fv ++ qs) default_dm [h], [])).
    { rewrite Eo, psteps_app. change (p_empty, @nil problem) with (with_doms [] default_dm [], @nil problem). rewrite declares_with by exact Nd. reflexivity. }
    destruct (calls_with M stdD fold K nx fuel (fv ++ qs) [h] bs default_dm (fold_left (fun l o => news_step o l) ops []) Hn') as (Ac & dms & Pr & Fd).
    assert (Run : cx_run fold K pico T mid precision (ops ++ fe_calls fuel bs) (cx_init nx) = Some (c1, ans)) by (rewrite cx_run_app, Er, Ea; reflexivity).
    assert (Adm : admissible M stdD fold K nx (ops ++ fe_calls fuel bs) [] (p_empty, [])) by (rewrite adm_app, Ps; auto).
    assert (Io' : ints_ok wl (ops ++ fe_calls fuel bs)).
    { intros W o v Ho. apply in_app_or in Ho. destruct Ho as [Ho|Ho]; [exact (Io W o v Ho)|]. unfold fe_calls in Ho. apply in_flat_map in Ho. destruct Ho as (b & _ & Ho). unfold inner_query, inner_sets in Ho.
      apply in_app_or in Ho. destruct Ho as [Ho|[<-|[]]]; [apply in_map_iff in Ho; destruct Ho as (w & <- & _)|]; intros []. }
    pose proof (unsat_top M stdD fold mid precision wl RC K pico nx T HP HT _ c1 ans Run Adm Io') as U. rewrite probs_app, Ps, Pr in U. apply f2_app_l in U.
    2:{ rewrite Eo, probs_app. assert (Z : forall l st, problems (map (fun v => ODeclare v true) l) st = []) by (induction l as [|v l IHl]; intros st; [reflexivity|cbn [map problems]; apply IHl]). rewrite Z. reflexivity. }
    clear - Fe Pe Hi Ed Ht Hb Fa Fd U Iv. 
    assert (Main : forall b d, (forall v x, (In v (bvars b) -> d v x <-> between (ilb (b_getv b v)) (iub (b_getv b v)) x) /\ (~ In v (flat_map bvars bs) -> d v x <-> default_dm v x)) -> In b bs ->
      ~ (exists rho, solution M stdD (with_doms (fv ++ qs) d [h]) rho) -> forall rho, well_typed rho -> in_box rho b -> (forall q, In q qs -> dom0 (vty q) (rho q)) -> defF M stdD g rho -> regular M stdD h rho ->
      slack M (- B2R eps) g rho).
    { intros b d Hd Hin Ns rho Wt Ib Dq Df Rg. destruct (Hb b Hin) as [Kb Vb]. apply not_slack. intros Sl. apply Ns. exists rho. split; [exact Wt|]. split.
      - intros v dd Hv. unfold with_doms in Hv. cbn [p_doms] in Hv. apply in_map_iff in Hv. destruct Hv as (w & Ew & Hw). assert (X : w = v /\ d w = dd) by (split; congruence). destruct X as [-> <-].
        apply in_app_or in Hw. destruct Hw as [Hw|Hw].
        + assert (Hvb : In v (bvars b)) by (apply Vb, Iv, Hw). apply (proj2 (proj1 (Hd v (rho v)) Hvb)). pose proof (b_getv_mem rho b v Kb Ib Hvb) as Mm.
          destruct (b_getv b v) as [|l u]; [destruct Mm|]. exact Mm.
        + refine (proj2 (proj2 (Hd v (rho v)) _) (Dq v Hw)). intros C. apply in_flat_map in C. destruct C as (b' & Hb' & C). apply (proj2 (Hb b' Hb')) in C. cbn [fvF] in C. apply filter_In in C. destruct C as [_ C].
          rewrite (proj2 (mem_var_In v qs) Hw) in C. discriminate.
      - intros f [<-|[]]. split; [exact Rg|].
        assert (Df' : defF M stdD (mk_not g) rho) by (destruct g; cbn [mk_not defF] in *; auto).
        assert (Hi' : hasIteF (mk_not g) = false) by (destruct g; cbn [mk_not hasIteF] in *; auto).
        destruct (strong_top uf rc fpow n k eps (mk_not g) rho h t Fe (Rlt_le _ _ Pe) Hi' Df' Ed Ht) as (_ & _ & X). apply (X Pe). exact Sl. }
    refine (f2_four _ _ _ _ _ bs dms ans rs Fd U Fa _). intros b d a r Hin Hd Hu Hr Hv rho Wt Ib Dq Df Rg. exact (Main b d Hd Hin (Hu (Hr Hv)) rho Wt Ib Dq Df Rg).
  Qed.
End Top.
