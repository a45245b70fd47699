(** * Proofs about .dr files with costs (C46) *)
From Coq Require Import ZArith Reals Lra Lia List Bool Arith.
From Flocq Require Import IEEE754.BinarySingleNaN.
From Verif Require Import Dbl DblProofs Syntax Sem SemProofs FormulaCons FormulaConsProofs Scoped Interval IEval Filter Contr Icp Theory StdInterp SpecForm PredAbs
  ExprAlg SpecAlg ExprAlgProofs AlgClosed CmpSound SmtOcc SpecIte IteElim IteElimProofs Regular Wff Sat Context SpecCtx SpecModel SpecWeak CtxSem CtxHom CtxTop WffProofs SpecFaith CtxFaith Minim SpecMin MinimProofs MinFaith
  Smt2 Smt2Proofs Dr SpecDr DrProofs Api SpecApi ApiProofs ApiFaith SpecDrMin.
Import ListNotations.
Local Notation R := Rdefinitions.R.

(** ** A formula without if-then-else is eliminated exactly *)
Lemma ite_log fold K f : qf f = true -> hasIteF f = false -> unfolded fold f -> forall g s, let s' := snd (iteF fold K f g s) in
  it_nodes s' = it_nodes s /\ forall a b, In (a, b) (it_cmps s') -> In (a, b) (it_cmps s) \/ fold a b = None.
Proof.
  induction f as [| | v | op a b | fs IH | fs IH | h IH | vs h IH] using formula_ind'; intros Q I U g s; cbn [qf] in Q; cbn [hasIteF] in I; try (split; [reflexivity|left; assumption]).
  - rewrite iteF_rel. apply orb_false_iff in I. destruct I as [I1 I2]. rewrite (iteE_noite fold K a g s I1), (iteE_noite fold K b g s I2). inversion U as [| | |? ? ? U'| | | |]; subst.
    unfold it_rel. cbn [snd it_nodes it_cmps]. split; [reflexivity|]. intros x y [E|H]; [right; congruence|left; exact H].
  - assert (X : forall s, it_nodes (snd (smap (fun h s => iteF fold K h g s) fs s)) = it_nodes s /\ forall a b, In (a, b) (it_cmps (snd (smap (fun h s => iteF fold K h g s) fs s))) -> In (a, b) (it_cmps s) \/ fold a b = None).
    { inversion U as [| | | |? U'| | |]; subst. clear U s. rewrite Forall_forall in IH. rewrite forallb_forall in Q. induction fs as [|f fs IHl]; intros s; cbn [smap]; [split; [reflexivity|left; assumption]|].
      cbn [existsb] in I. apply orb_false_iff in I. destruct I as [I1 I2]. destruct (IH f (or_introl eq_refl) (Q f (or_introl eq_refl)) I1 (U' f (or_introl eq_refl)) g s) as [A1 A2].
      destruct (iteF fold K f g s) as [f1 t]. cbn [snd] in A1, A2. specialize (IHl (fun x Hx => IH x (or_intror Hx)) (fun x Hx => Q x (or_intror Hx)) I2 (fun x Hx => U' x (or_intror Hx)) t). destruct IHl as [B1 B2].
      destruct (smap _ fs t) as [r t2]. cbn [snd] in *. split; [congruence|]. intros x y H. destruct (B2 x y H) as [Y|Y]; [exact (A2 x y Y)|right; exact Y]. }
    rewrite (iteF_conn fold K true fs g s). specialize (X s). destruct (smap _ fs s) as [ops s1]. exact X.
  - assert (X : forall s, it_nodes (snd (smap (fun h s => iteF fold K h g s) fs s)) = it_nodes s /\ forall a b, In (a, b) (it_cmps (snd (smap (fun h s => iteF fold K h g s) fs s))) -> In (a, b) (it_cmps s) \/ fold a b = None).
    { inversion U as [| | | | |? U'| |]; subst. clear U s. rewrite Forall_forall in IH. rewrite forallb_forall in Q. induction fs as [|f fs IHl]; intros s; cbn [smap]; [split; [reflexivity|left; assumption]|].
      cbn [existsb] in I. apply orb_false_iff in I. destruct I as [I1 I2]. destruct (IH f (or_introl eq_refl) (Q f (or_introl eq_refl)) I1 (U' f (or_introl eq_refl)) g s) as [A1 A2].
      destruct (iteF fold K f g s) as [f1 t]. cbn [snd] in A1, A2. specialize (IHl (fun x Hx => IH x (or_intror Hx)) (fun x Hx => Q x (or_intror Hx)) I2 (fun x Hx => U' x (or_intror Hx)) t). destruct IHl as [B1 B2].
      destruct (smap _ fs t) as [r t2]. cbn [snd] in *. split; [congruence|]. intros x y H. destruct (B2 x y H) as [Y|Y]; [exact (A2 x y Y)|right; exact Y]. }
    rewrite (iteF_conn fold K false fs g s). specialize (X s). destruct (smap _ fs s) as [ops s1]. exact X.
  - rewrite iteF_not. inversion U as [| | | | | |? U'|]; subst. specialize (IH Q I U' g s). destruct (iteF fold K h g s) as [h1 s1]. exact IH.
  - discriminate Q.
Qed.
Lemma noite_exact M D fold K f : qf f = true -> hasIteF f = false -> unfolded fold f -> ite_exact M D fold K f.
Proof.
  intros Q I U m. pose proof (ite_log fold K f Q I U FTrue (it_init m)) as [A B]. unfold ite_process. destruct (iteF fold K f FTrue (it_init m)) as [f' s]. cbn [snd] in *. split.
  - intros x Hx. rewrite A in Hx. destruct Hx.
  - intros a b Hab. destruct (B a b Hab) as [[]|E]. intros op rho. unfold mk_rel. rewrite E. apply iff_refl.
Qed.

Section Dr.
  Variables (uf : nat -> list R -> R) (rc : dbl -> dbl -> R) (fpow : dbl -> dbl -> dbl) (n : nat) (evl : expr -> option dbl).
  Notation M := (std uf rc).
  Notation ok := (Forall (exact M)).

  (** ** What the front end builds *)
  Section Closed.
    Variables (C : dbl -> Prop) (P : expr -> Prop) (Q : formula -> Prop).
    Hypothesis KE : closedE C P.
    Hypothesis KF : closedP Q.
    Hypothesis KR : forall o a b, P a -> P b -> res M Q (mk_relm fpow n o a b).
    Lemma exp_P sc e : (forall x v, assoc x sc = Some v -> P (EVar v)) -> exp_lits e -> res M P (dr_exp fpow n sc e).
    Proof.
      intros Hs. induction e as [d|x|a IHa b IHb|a IHa b IHb|a IHa b IHb|a IHa|o a IHa|o a IHa b IHb]; cbn [exp_lits dr_exp]; intros L.
      - apply res_ret. apply (P_const C P KE). now apply (kfin _ _ KE).
      - destruct (assoc x sc) as [v|] eqn:Ea; [|intros r t E; discriminate]. apply res_ret. exact (Hs x v Ea).
      - destruct L. eapply res_bind; [apply IHa; auto|]. intros p Hp. eapply res_bind; [apply IHb; auto|]. intros q Hq. eapply res_pres. apply (mk_add_P M fpow _ _ KE); auto.
      - destruct L. eapply res_bind; [apply IHa; auto|]. intros p Hp. eapply res_bind; [apply IHb; auto|]. intros q Hq. eapply res_pres. apply (mk_sub_P M fpow _ _ KE); auto.
      - destruct L. eapply res_bind; [apply IHa; auto|]. intros p Hp. eapply res_bind; [apply IHb; auto|]. intros q Hq. eapply res_pres. apply (mk_mul_P M fpow _ _ KE); auto.
      - eapply res_bind; [apply IHa; auto|]. intros p Hp. eapply res_pres. apply (mk_neg_P M fpow _ _ KE); auto.
      - eapply res_bind; [apply IHa; auto|]. intros p Hp. eapply res_pres. apply (mk_un_P M _ _ KE); auto.
      - destruct L. eapply res_bind; [apply IHa; auto|]. intros p Hp. eapply res_bind; [apply IHb; auto|]. intros q Hq. eapply res_pres. apply (mk_bin_P M fpow _ _ KE); auto.
    Qed.
    Lemma form_P sc f : (forall x v, assoc x sc = Some v -> P (EVar v)) -> form_lits f -> res M Q (dr_form fpow n sc f).
    Proof.
      intros Hs. induction f as [o a b|f IHf g IHg|f IHf g IHg|f IHf g IHg|f IHf]; cbn [form_lits dr_form]; intros L.
      - destruct L. eapply res_bind; [apply exp_P; auto|]. intros p Hp. eapply res_bind; [apply exp_P; auto|]. intros q Hq. apply KR; auto.
      - destruct L. eapply res_bind; [apply IHf; auto|]. intros p Hp. eapply res_bind; [apply IHg; auto|]. intros q Hq. apply res_ret. now apply (c_and _ KF).
      - destruct L. eapply res_bind; [apply IHf; auto|]. intros p Hp. eapply res_bind; [apply IHg; auto|]. intros q Hq. apply res_ret. now apply (c_or _ KF).
      - destruct L. eapply res_bind; [apply IHf; auto|]. intros p Hp. eapply res_bind; [apply IHg; auto|]. intros q Hq. apply res_ret. apply (c_or _ KF); auto. now apply (c_not _ KF).
      - eapply res_bind; [apply IHf; auto|]. intros p Hp. apply res_ret. now apply (c_not _ KF).
    Qed.
  End Closed.

  (** Finite literals and variables satisfying [A] *)
  Section Wf.
    Variables (A : var -> Prop) (fold : expr -> expr -> option dbl).
    Hypothesis FO : folds fpow n fold.
    Definition gE (e : expr) : Prop := wfE A (fun _ => False) (fun _ => False) e /\ hasIteE e = false /\ occE (fun _ => False) (fun v => A v /\ vty v <> BOOLEAN) e.
    Definition gF (f : formula) : Prop :=
      (wfF A (fun _ => False) (fun _ => False) f /\ hasIteF f = false) /\ occF (fun _ => False) (fun v => A v /\ vty v <> BOOLEAN) f /\ unfolded fold f.
    Lemma closedE_wf : closedE (fun c => is_finite c = true) (wfE A (fun _ => False) (fun _ => False)).
    Proof.
      split; auto; try (intros; apply iff_refl).
      - unfold dopp. now rewrite is_finite_Bopp.
      - unfold dabs. now rewrite is_finite_Babs.
      - cbn [wfE]. assert (X : forall A B C : Prop, (B <-> C) -> (A /\ B <-> A /\ C)) by tauto. apply X. clear X.
        induction ts as [|[a k] ts IH]; cbn [fold_right]; [split; [intros _ ? ? []|auto]|]. rewrite IH.
        split; [intros [H1 H2] x y [E|E]; [inversion E; subst; auto|auto]|intros H; split; [apply H; now left|intros; apply H; now right]].
      - cbn [wfE]. assert (X : forall A B C : Prop, (B <-> C) -> (A /\ B <-> A /\ C)) by tauto. apply X. clear X.
        induction ts as [|[a k] ts IH]; cbn [fold_right]; [split; [intros _ ? ? []|auto]|]. rewrite IH.
        split; [intros [H1 H2] x y [E|E]; [inversion E; subst; auto|auto]|intros H; split; [apply H; now left|intros; apply H; now right]].
    Qed.
    Lemma closedE_both C C' P P' : closedE C P -> closedE C' P' -> closedE (fun c => C c /\ C' c) (fun e => P e /\ P' e).
    Proof.
      intros H1 H2. split.
      - intros c H. split; [now apply (kfin _ _ H1)|now apply (kfin _ _ H2)].
      - intros c [X Y]. split; [now apply (kopp _ _ H1)|now apply (kopp _ _ H2)].
      - intros c [X Y]. split; [now apply (kabs _ _ H1)|now apply (kabs _ _ H2)].
      - intros c. rewrite (kc _ _ H1), (kc _ _ H2). tauto.
      - intros c ts. rewrite (ka _ _ H1), (ka _ _ H2). split; [intros ((X & X') & Y & Y'); split; [tauto|]; intros a k Z; specialize (X' a k Z); specialize (Y' a k Z); tauto|].
        intros ((X & Y) & Z). split; (split; [assumption|]; intros a k W; specialize (Z a k W); tauto).
      - intros c ts. rewrite (km _ _ H1), (km _ _ H2). split; [intros ((X & X') & Y & Y'); split; [tauto|]; intros a k Z; specialize (X' a k Z); specialize (Y' a k Z); tauto|].
        intros ((X & Y) & Z). split; (split; [assumption|]; intros a k W; specialize (Z a k W); tauto).
      - intros o a. rewrite (ku _ _ H1), (ku _ _ H2). tauto.
      - intros o a b. rewrite (kb _ _ H1), (kb _ _ H2). tauto.
    Qed.
    Lemma closed_gE : closedE (fun c => is_finite c = true /\ True /\ True) gE.
    Proof. apply (closedE_both _ _ _ _ closedE_wf). apply (closedE_both _ _ _ _ closed_noite). apply closedE_occ. Qed.
    Lemma closed_gF : closedP gF.
    Proof. apply (closed_both (fun f => wfF A (fun _ => False) (fun _ => False) f /\ hasIteF f = false) (fun f => occF (fun _ => False) (fun v => A v /\ vty v <> BOOLEAN) f /\ unfolded fold f));
      [apply closed_both; [apply closed_wf|apply closed_ite]|apply closed_both; [apply closedP_occ|apply closed_unf]]. Qed.
    Lemma relm_gF o a b : gE a -> gE b -> res M gF (mk_relm fpow n o a b).
    Proof.
      intros (A1 & A2 & A3) (B1 & B2 & B3) r t E _. unfold mk_relm in E. apply bind_val in E. destruct E as (d & t1 & t2 & E1 & E2 & ->).
      assert (T : gF FTrue) by (repeat split; constructor). assert (F : gF FFalse) by (repeat split; constructor).
      assert (X : fold a b = None -> gF (FRel o a b)).
      { intros N. split; [split; [exact (conj A1 B1)|cbn [hasIteF]; rewrite A2, B2; reflexivity]|]. split; [exact (conj A3 B3)|]. now apply ro_rel. }
      assert (Y : (forall c, d = EConst c -> is_nan c = true) -> fold a b = None).
      { intros N. destruct (fold a b) as [c|] eqn:Ef; [|reflexivity]. destruct (FO a b c Ef) as (t & Et & Nc). assert (d = EConst c) by congruence. rewrite (N c H) in Nc. discriminate. }
      destruct d as [c| | | | | | | |]; try (apply ret_val in E2; destruct E2 as [-> _]; apply X, Y; intros ? Z; discriminate).
      destruct (is_nan c) eqn:Nc.
      - apply ret_val in E2. destruct E2 as [-> _]. apply X, Y. intros c' Z. injection Z as <-. exact Nc.
      - apply bind_val in E2. destruct E2 as (u & t3 & t4 & _ & E2 & ->). apply ret_val in E2. destruct E2 as [-> _]. destruct (relop_on o c); assumption.
    Qed.
  End Wf.

  (** ** The calls are admissible *)
  Lemma declared_set v d p w : declared (set_domain v d p) w <-> declared p w.
  Proof.
    unfold declared, set_domain. cbn [p_doms]. rewrite map_map.
    assert (E : forall l : list (var * (R -> Prop)), map (fun x => fst (if var_eqb v (fst x) then (v, d) else x)) l = map fst l).
    { intros l. apply map_ext. intros [x y]. cbn [fst]. destruct (var_eqb v x) eqn:X; [apply var_eqb_eq in X; exact X|reflexivity]. }
    rewrite E. apply iff_refl.
  Qed.
  Lemma declared_decl v p w : declared (declare v p) w <-> declared p w \/ w = v.
  Proof.
    unfold declare, declared. destruct (mem_var v (map fst (p_doms p))) eqn:E.
    - apply mem_var_In in E. split; [auto|]. intros [H| ->]; assumption.
    - cbn [p_doms]. rewrite map_app, in_app_iff. cbn [map fst In]. split; (intros [H|H]; [left; exact H|right]); [destruct H as [<-|[]]; reflexivity|left; congruence].
  Qed.
  Section Adm.
    Variables (fold : expr -> expr -> option dbl) (K : eops) (nx0 : nat).
    Lemma asserts_adm fs : forall news p, (forall f, In f fs -> wfF (fun v => declared p v /\ vty v <> BOOLEAN) (fun v => declared p v /\ vty v = BOOLEAN) (fun v => False) f /\ ite_exact M stdD fold K f) ->
      admissible M stdD fold K nx0 (map OAssert fs) news (p, []).
    Proof.
      induction fs as [|f fs IH]; intros news p H; [exact I|]. cbn [map admissible admissible_q op_ok_q p_step fst]. split.
      - destruct (H f (or_introl eq_refl)) as [W X]. split; [|exact X]. refine (proj2 (WffProofs.wf_mono _ _ _ _ _ _ _ _ _) f W); auto. intros v [].
      - apply (IH _ (add_assert f p)). intros g Hg. exact (H g (or_intror Hg)).
    Qed.
    Lemma asserts_delta fs : forall p, p_doms p <> [] -> (forall f, In f fs -> hasIteF f = false /\ unfolded fold f) -> delta_ops fold (map OAssert fs) (p, []).
    Proof.
      induction fs as [|f fs IH]; intros p Hp H; [exact I|]. cbn [map delta_ops delta_op p_step fst]. split; [destruct (H f (or_introl eq_refl)); auto|].
      apply (IH (add_assert f p) Hp). intros g Hg. exact (H g (or_intror Hg)).
    Qed.
    Lemma decls_adm bs : forall nx news p ops, p_asserts p = [] -> Forall (fun b => is_nan (fst b) = false /\ is_nan (snd b) = false) bs ->
      (forall news' p', p_asserts p' = [] -> (forall v, declared p v \/ (exists i, i < length bs /\ v = dvar nx i) -> declared p' v) -> admissible M stdD fold K nx0 ops news' (p', [])) ->
      admissible M stdD fold K nx0 (decl_ops bs nx ++ ops) news (p, []).
    Proof.
      induction bs as [|[l u] bs IH]; intros nx news p ops Hp HB H; cbn [decl_ops app].
      - apply H; auto. intros v [X|(i & X & _)]; [exact X|cbn in X; lia].
      - inversion HB as [|? ? [N1 N2] HB']; subst. cbn [admissible admissible_q op_ok_q p_step fst news_step]. split; [exact I|]. split.
        { split; [right; left; reflexivity|]. split; [intros _; left; exact Hp|]. split; [exact N1|]. split; [exact N2|]. intros C. discriminate C. }
        apply IH; [unfold set_domain, declare; destruct (mem_var _ _); exact Hp|exact HB'|].
        intros news' p' Hp' Hd. apply H; [exact Hp'|]. intros v [X|(i & L & ->)]; apply Hd.
        + left. apply declared_set, declared_decl. left. exact X.
        + destruct i as [|i]; [left; apply declared_set, declared_decl; right; unfold dvar; rewrite Nat.add_0_r; reflexivity|].
          right. exists i. cbn [length] in L. split; [lia|]. unfold dvar. f_equal. lia.
    Qed.
    Lemma decls_delta (bs : list (dbl * dbl)) : forall nx p ops, p_asserts p = [] -> (forall p', p_asserts p' = [] -> length (p_doms p') >= (if bs then length (p_doms p) else 1) -> delta_ops fold ops (p', [])) -> delta_ops fold (decl_ops bs nx ++ ops) (p, []).
    Proof.
      induction bs as [|[l u] bs IH]; intros nx p ops Hp H; cbn [decl_ops app]; [apply H; auto|].
      cbn [delta_ops delta_op p_step fst]. split; [exact I|]. split; [intros _; exact Hp|]. apply IH; [unfold set_domain, declare; destruct (mem_var _ _); exact Hp|].
      intros p' Hp' L. apply H; [exact Hp'|]. destruct bs; [|exact L]. unfold set_domain in L. cbn [p_doms] in L. rewrite map_length in L.
      assert (X : declared (declare (mkVar nx CONTINUOUS) p) (mkVar nx CONTINUOUS)) by (apply declared_decl; auto). unfold declared in X. destruct (p_doms (declare (mkVar nx CONTINUOUS) p)); [destruct X|cbn in L; lia].
    Qed.
  End Adm.

  (** ** What the calls are, in full *)
  Record dr_built (fold : expr -> expr -> option dbl) (d : dfile) (nx : nat) (bs : list (dbl * dbl)) (ops : list cop) (fs : list formula) (gs : list expr) : Prop := {
    db_ops : ops = decl_ops bs nx ++ map OAssert fs;
    db_bs : Forall2 (fun dd b => bound_is M stdD evl (dr_vars d) nx (dd_lb dd) (fst b) /\ bound_is M stdD evl (dr_vars d) nx (dr_ub dd) (snd b)) (dr_vars d) bs;
    db_fs : Forall2 (means_form M stdD (dr_vars d) nx) (dr_ctr d) fs;
    db_gs : Forall2 (means_exp M stdD (dr_vars d) nx) (dr_cost d) gs;
    db_gF : forall f, In f fs -> gF (fun v => exists i, i < length bs /\ v = dvar nx i) fold f;
    db_gE : forall g, In g gs -> gE (fun v => exists i, i < length bs /\ v = dvar nx i) g }.
  Lemma f2_len {A B} (P : A -> B -> Prop) l r : Forall2 P l r -> length l = length r. Proof. induction 1; cbn [length]; congruence. Qed.
  Lemma f2_right {A B} (P : A -> B -> Prop) l r b : Forall2 P l r -> In b r -> exists a, In a l /\ P a b.
  Proof. induction 1; intros H1; [destruct H1|]. destruct H1 as [<-|H1]; [exists x; split; [left; reflexivity|assumption]|]. destruct (IHForall2 H1) as (a & X & Y). exists a. split; [right; exact X|exact Y]. Qed.
  Lemma f2_left {A B} (P : A -> B -> Prop) l r a : Forall2 P l r -> In a l -> exists b, In b r /\ P a b.
  Proof. induction 1; intros H1; [destruct H1|]. destruct H1 as [<-|H1]; [exists y; split; [left; reflexivity|assumption]|]. destruct (IHForall2 H1) as (b & X & Y). exists b. split; [right; exact X|exact Y]. Qed.
  Lemma built fold d nx ops gs t : folds fpow n fold -> dr_lits d -> dr_calls fpow n evl d nx = (Val (ops, gs), t) -> ok t -> exists bs fs, dr_built fold d nx bs ops fs gs.
  Proof.
    intros FO [L1 L2] E Ht. pose proof E as E0. destruct (calls_ok uf rc fpow n evl d nx ops gs t E Ht) as (bs & fs & Eo & HB & HF & HG). exists bs, fs.
    unfold dr_calls in E0.
    apply bind_val in E0; destruct E0 as (r & t1 & t2 & E1 & E0 & ->); apply Forall_app in Ht; destruct Ht as [O1 O2].
    apply bind_val in E0; destruct E0 as (fs' & t3 & t4 & E2 & E0 & ->); apply Forall_app in O2; destruct O2 as [O2 O3].
    apply bind_val in E0; destruct E0 as (gs' & t5 & t6 & E3 & E0 & ->); apply Forall_app in O3; destruct O3 as [O3 O4].
    apply ret_val in E0. destruct E0 as [E0 ->].
    destruct (decls_ok uf rc fpow n evl (dr_vars d) (dr_vars d) [] nx r t1 eq_refl) as (F1 & bs' & F2 & F3); auto. { cbn [length]. rewrite Nat.add_0_r. exact E1. }
    cbn [length] in F2. rewrite Nat.add_0_r in F2. assert (gs = gs') by congruence. subst gs'.
    assert (Ef : fs = fs').
    { assert (X : decl_ops bs nx ++ map OAssert fs = snd r ++ map OAssert fs') by congruence. rewrite F2 in X.
      assert (Lb : length bs = length bs') by (rewrite <- (f2_len _ _ _ HB), <- (f2_len _ _ _ F3); reflexivity).
      assert (Y : map OAssert fs = map OAssert fs').
      { clear - X Lb. revert bs' Lb nx X. induction bs as [|[l u] bs IH]; intros [|[l' u'] bs'] Lb nx X; try discriminate Lb; [exact X|]. cbn [decl_ops app] in X. apply (IH bs' ltac:(cbn in Lb; lia) (S nx)). congruence. }
      clear - Y. revert fs' Y. induction fs as [|f fs IH]; intros [|g gs] Y; try discriminate Y; [reflexivity|]. cbn [map] in Y. f_equal; [congruence|]. apply IH. congruence. }
    subst fs'. set (A := fun v => exists i, i < length bs /\ v = dvar nx i).
    assert (Sc : forall x v, assoc x (fst r) = Some v -> gE A (EVar v)).
    { intros x v Ea. apply assoc_In in Ea. rewrite F1 in Ea. apply sc_of_in in Ea. destruct Ea as (i & dd & X & _ & ->).
      assert (Y : A (dvar nx i)) by (exists i; split; [rewrite <- (f2_len _ _ _ HB); apply nth_error_Some; congruence|reflexivity]).
      split; [exact Y|]. split; [reflexivity|]. cbn [occE]. split; [split; [exact Y|discriminate]|discriminate]. }
    constructor; auto.
    - intros f Hf. destruct (f2_right _ _ _ _ (collect_ok uf rc _ _ _ _ E2 O2) Hf) as (c & Hc & t' & X & Y).
      exact (form_P _ _ _ (closed_gE A) (closed_gF A fold) (relm_gF A fold FO) (fst r) c Sc (L1 c Hc) f t' X Y).
    - intros g Hg. destruct (f2_right _ _ _ _ (collect_ok uf rc _ _ _ _ E3 O3) Hg) as (c & Hc & t' & X & Y).
      exact (exp_P _ _ (closed_gE A) (fst r) c Sc (L2 c Hc) g t' X Y).
  Qed.
  Lemma gF_wf A fold f (q pv bq : var -> Prop) : gF A fold f -> (forall v, A v -> q v) -> wfF q pv bq f.
  Proof. intros [[W _] _] H. refine (proj2 (WffProofs.wf_mono _ _ _ _ _ _ _ _ _) f W); auto; intros v []. Qed.
  Lemma gF_exact A fold K f : gF A fold f -> ite_exact M stdD fold K f.
  Proof. intros [[W I] [_ U]]. apply noite_exact; auto. apply (wf_qf _ _ _ f (fun v C => C) W). Qed.
  Theorem dr_adm fold K d nx bs ops fs gs : dr_built fold d nx bs ops fs gs -> forall tl, tl = [] \/ (exists fuel, tl = [OCheck fuel]) -> admissible M stdD fold K nx (ops ++ tl) [] (p_empty, []).
  Proof.
    intros B tl Htl. rewrite (db_ops _ _ _ _ _ _ _ B), <- app_assoc. apply decls_adm; [reflexivity| |].
    - pose proof (db_bs _ _ _ _ _ _ _ B) as HB. apply Forall_forall. intros b Hb. destruct (f2_right _ _ _ _ HB Hb) as (a & _ & [X _] & [Y _]). auto.
    - intros news p Hp Hd. assert (X : admissible M stdD fold K nx (map OAssert fs) news (p, [])).
      { apply asserts_adm. intros f Hf. pose proof (db_gF _ _ _ _ _ _ _ B f Hf) as G. split; [|exact (gF_exact _ _ _ _ G)]. apply (gF_wf _ _ _ _ _ _ G).
        intros v Hv. split; [apply Hd; right; exact Hv|]. destruct Hv as (i & _ & ->). discriminate. }
      clear - X Htl. revert news p X. induction fs as [|f fs IH]; intros news p X; cbn [map app].
      + destruct Htl as [->|(fuel & ->)]; cbn [admissible admissible_q op_ok_q]; auto.
      + cbn [map] in X. destruct X as [X1 X2]. split; [exact X1|]. exact (IH news (add_assert f p) X2).
  Qed.
  Theorem dr_delta fold d nx bs ops fs gs : dr_built fold d nx bs ops fs gs -> dr_vars d <> [] -> delta_ops fold ops (p_empty, []).
  Proof.
    intros B Hv. rewrite (db_ops _ _ _ _ _ _ _ B). apply decls_delta; [reflexivity|]. intros p' Hp' L. apply asserts_delta.
    - intros C. rewrite C in L. destruct bs; [|cbn in L; lia]. pose proof (f2_len _ _ _ (db_bs _ _ _ _ _ _ _ B)) as X. destruct (dr_vars d); [congruence|discriminate X].
    - intros f Hf. destruct (db_gF _ _ _ _ _ _ _ B f Hf) as [[_ X] [_ Y]]. auto.
  Qed.
  Lemma dr_current fold d nx bs ops fs gs : dr_built fold d nx bs ops fs gs -> current ops = {| p_doms := decl_doms bs nx; p_asserts := fs |}.
  Proof.
    intros B. assert (N : forall k, ~ In (OCheck k) ops).
    { rewrite (db_ops _ _ _ _ _ _ _ B). intros k C. apply in_app_iff in C. destruct C as [C|C].
      - clear - C. revert nx C. induction bs as [|[l u] bs IH]; intros nx C; [destruct C|]. cbn [decl_ops] in C. destruct C as [C|[C|C]]; try discriminate. exact (IH _ C).
      - apply in_map_iff in C. destruct C as (x & X & _). discriminate X. }
    pose proof (problems_fold ops (p_empty, []) 0 N) as X. rewrite (db_ops _ _ _ _ _ _ _ B) in X at 1. rewrite (problem_of uf rc fpow n) in X. unfold current. congruence.
  Qed.

  (** ** The names at a point of the solver *)
  Definition names_at (ds : list ddecl) (nx : nat) (rho : env) (x : nat) : R :=
    match assoc x (combine (map dd_name ds) (map (dvar nx) (seq 0 (length ds)))) with Some v => rho v | None => 0%R end.
  Lemma assoc_nth {B} ks : forall (vs : list B) i k v, NoDup ks -> nth_error ks i = Some k -> nth_error vs i = Some v -> assoc k (combine ks vs) = Some v.
  Proof.
    induction ks as [|k0 ks IH]; intros vs i k v N Hk Hv; [destruct i; discriminate|]. inversion N; subst. destruct vs as [|v0 vs]; [destruct i; discriminate|]. cbn [combine assoc].
    destruct i as [|i]; cbn [nth_error] in Hk, Hv.
    - assert (k0 = k) by congruence. subst k0. rewrite Nat.eqb_refl. congruence.
    - destruct (Nat.eqb k k0) eqn:E; [|exact (IH vs i k v H2 Hk Hv)]. apply Nat.eqb_eq in E. subst k0. exfalso. apply H1. exact (nth_error_In _ _ Hk).
  Qed.
  Lemma names_reads ds nx rho : NoDup (map dd_name ds) -> dr_reads ds nx (names_at ds nx rho) rho.
  Proof.
    intros N i d E. unfold names_at. rewrite (assoc_nth (map dd_name ds) (map (dvar nx) (seq 0 (length ds))) i (dd_name d) (dvar nx i) N); [reflexivity|now rewrite nth_error_map, E|].
    assert (L : i < length ds) by (apply nth_error_Some; congruence). rewrite nth_error_map. rewrite (nth_error_nth' (seq 0 (length ds)) 0) by (rewrite seq_length; exact L). cbn [option_map]. rewrite seq_nth by exact L. reflexivity.
  Qed.
  Lemma solution_iff fold d nx bs ops fs gs : dr_built fold d nx bs ops fs gs -> dr_total M stdD d bs -> forall V rho, well_typed rho -> dr_reads (dr_vars d) nx V rho ->
    (satisfying M (current ops) rho <-> dr_solution M stdD d bs V).
  Proof.
    intros B T V rho W HR. rewrite (dr_current _ _ _ _ _ _ _ B). unfold satisfying. cbn [p_doms p_asserts]. split.
    - intros (_ & D1 & A1). assert (Ib : in_bounds d bs V) by (apply (doms_reads' _ _ nx V rho); auto; exact (f2_len _ _ _ (db_bs _ _ _ _ _ _ _ B))). split; [exact Ib|].
      intros f Hf. destruct (T V Ib) as [T1 _]. split; [auto|]. destruct (f2_left _ _ _ _ (db_fs _ _ _ _ _ _ _ B) Hf) as (g & Hg & Mg). destruct (Mg V rho HR (T1 f Hf)) as [_ X]. apply X, A1, Hg.
    - intros [Ib C]. split; [exact W|]. split; [intros v dm Hv; exact (doms_reads _ _ nx V rho HR Ib v dm Hv)|]. intros g Hg.
      destruct (f2_right _ _ _ _ (db_fs _ _ _ _ _ _ _ B) Hg) as (f & Hf & Mg). destruct (C f Hf) as [X1 X2]. destruct (Mg V rho HR X1) as [_ X]. now apply X.
  Qed.
  Lemma dr_posed fold d nx bs ops fs gs : dr_built fold d nx bs ops fs gs -> dr_total M stdD d bs -> NoDup (map dd_name (dr_vars d)) -> posed_problem M stdD (current ops) gs.
  Proof.
    intros B T N. rewrite (dr_current _ _ _ _ _ _ _ B). assert (Dc : forall v, declared {| p_doms := decl_doms bs nx; p_asserts := fs |} v <-> exists i, i < length bs /\ v = dvar nx i).
    { intros v. unfold declared, decl_doms. cbn [p_doms]. rewrite map_map. cbn [fst]. clear. revert nx. induction bs as [|b bs IH]; intros nx; cbn [length seq combine map In].
      - split; [intros []|intros (i & L & _); lia].
      - rewrite (IH (S nx)). cbn [snd]. split.
        + intros [<-|(i & L & ->)]; [exists 0; split; [lia|]; unfold dvar; now rewrite Nat.add_0_r|]. exists (S i). split; [lia|]. unfold dvar. f_equal. lia.
        + intros ([|i] & L & ->); [left; unfold dvar; now rewrite Nat.add_0_r|]. right. exists i. split; [lia|]. unfold dvar. f_equal. lia. }
    split; [|split; [|split]].
    - intros v w Hv Hw E. apply Dc in Hv, Hw. destruct Hv as (i & _ & ->), Hw as (j & _ & ->). unfold dvar in *. cbn [vid] in E. congruence.
    - intros f Hf. cbn [p_asserts] in Hf. destruct (db_gF _ _ _ _ _ _ _ B f Hf) as [_ [O _]]. refine (occF_mono _ f _ _ _ O). intros v [Hv _]. now apply Dc.
    - intros g Hg. destruct (db_gE _ _ _ _ _ _ _ B g Hg) as [_ [_ O]]. refine (occE_mono _ g _ _ _ O). intros v [Hv _]. now apply Dc.
    - intros rho W Dm. cbn [p_doms p_asserts] in *. set (V := names_at (dr_vars d) nx rho). assert (HR := names_reads (dr_vars d) nx rho N). fold V in HR.
      destruct (T V) as [T1 T2]; [apply (doms_reads' _ _ nx V rho); auto; exact (f2_len _ _ _ (db_bs _ _ _ _ _ _ _ B))|]. split.
      + intros f Hf. destruct (f2_right _ _ _ _ (db_fs _ _ _ _ _ _ _ B) Hf) as (c & Hc & Mc). apply (Mc V rho HR (T1 c Hc)).
      + intros g Hg. destruct (f2_right _ _ _ _ (db_gs _ _ _ _ _ _ _ B) Hg) as (c & Hc & Mc). apply (Mc V rho HR (T2 c Hc)).
  Qed.
End Dr.

Theorem dr_minima : forall uf rc fpow n evl fold K pico T mid precision eval d models nx fuel lines t, let M := std uf rc in rc_ok M -> folds fpow n fold ->
  dr_run fpow n evl fold K pico T mid precision eval d models nx fuel = (Val (Some lines), t) -> Forall (exact M) t ->
  dr_cost d <> [] -> dr_vars d <> [] -> NoDup (map dd_name (dr_vars d)) -> dr_lits d ->
  (forall ops gs t', dr_calls fpow n evl d nx = (Val (ops, gs), t') -> Forall exact_op ops) ->
  exists bs, Forall2 (fun dd b => bound_is M stdD evl (dr_vars d) nx (dd_lb dd) (fst b) /\ bound_is M stdD evl (dr_vars d) nx (dr_ub dd) (snd b)) (dr_vars d) bs /\
    (dr_total M stdD d bs -> exists ops c p r gs, cx_run fold K pico T mid precision (ops ++ [OCheck fuel]) (cx_init nx) = Some (c, [r]) /\ problems (ops ++ [OCheck fuel]) (p_empty, []) = [p] /\
      lines = dr_print mid precision eval models gs r /\ Forall2 (means_exp M stdD (dr_vars d) nx) (dr_cost d) gs /\
      forall V, (exists rho, dr_reads (dr_vars d) nx V rho /\ satisfying M p rho) <-> dr_minimum M stdD d bs V).
Proof.
  intros uf rc fpow n evl fold K pico T mid precision eval d models nx fuel lines t M RC FO E Ht Hc Hv Nd Li Hx.
  destruct (solve_ok _ _ _ _ _ _ _ _ _ _ _ _ _ _ _ _ E) as (ops & gs & t0 & c & mops & c' & r & t1 & E0 & E1 & Em & Et & E2 & El). subst t. apply Forall_app in Ht. destruct Ht as [H0 H1].
  destruct (built uf rc fpow n evl fold d nx ops gs t0 FO Li E0 H0) as (bs & fs & B). exists bs. split; [exact (db_bs _ _ _ _ _ _ _ _ _ _ B)|]. intros To.
  assert (Em' : minimize fpow n gs c = (Val mops, t1)).
  { destruct gs as [|g gs]; [|exact Em]. pose proof (f2_len _ _ _ (db_gs _ _ _ _ _ _ _ _ _ _ B)) as X. destruct (dr_cost d); [congruence|discriminate X]. }
  clear Em. assert (Ad : admissible M stdD fold K nx ops [] (p_empty, [])) by (rewrite <- (app_nil_r ops); exact (dr_adm uf rc evl fold K d nx bs ops fs gs B [] (or_introl eq_refl))).
  assert (De := dr_delta uf rc evl fold d nx bs ops fs gs B Hv). assert (Ex := Hx ops gs t0 E0).
  assert (Po := dr_posed uf rc fpow n evl fold d nx bs ops fs gs B To Nd).
  pose proof (minimize_problem uf rc fpow n fold K pico T mid precision nx RC ops c [] Ad De Ex E1 gs mops t1 Em' H1 Po) as Mp. fold M in Mp.
  exists (ops ++ mops), c', (current (ops ++ mops)), r, gs. split; [rewrite <- app_assoc; exact E2|]. split; [|split; [exact El|split; [exact (db_gs _ _ _ _ _ _ _ _ _ _ B)|]]].
  { apply problems_fold. intros k C. apply in_app_iff in C. destruct C as [C|C]; [|exact (no_check_min uf rc fpow n gs c mops t1 k Em' H1 C)].
    rewrite (db_ops _ _ _ _ _ _ _ _ _ _ B) in C. apply in_app_iff in C. destruct C as [C|C].
    - clear - C. revert nx C. induction bs as [|[l u] bs IH]; intros nx C; [destruct C|]. cbn [decl_ops] in C. destruct C as [C|[C|C]]; try discriminate. exact (IH _ C).
    - apply in_map_iff in C. destruct C as (x & X & _). discriminate X. }
  assert (Val : forall V rho g g', dr_reads (dr_vars d) nx V rho -> in_bounds d bs V -> means_exp M stdD (dr_vars d) nx g g' -> In g (dr_cost d) -> evalE M g' rho = dval M V g).
  { intros V rho g g' HR Ib Mg Hg. apply (Mg V rho HR). apply (To V Ib). exact Hg. }
  assert (Sol := solution_iff uf rc fpow n evl fold d nx bs ops fs gs B To).
  assert (Nz : forall V rho rho1, dr_reads (dr_vars d) nx V rho -> agree_off (declared_by mops) rho rho1 -> dr_reads (dr_vars d) nx V rho1).
  { intros V rho rho1 HR Ag i dd Ei. rewrite <- (HR i dd Ei). apply Ag. intros C.
    destruct (faithful M stdD fold K pico T mid precision nx RC ops c [] Ad De Ex E1) as (b & Eb & F & Sm).
    unfold minimize in Em'. rewrite Eb in Em'. apply bind_val in Em'. destruct Em' as ([[ys zs] psi] & s1 & s2 & E3 & E4 & ->). apply ret_val in E4. destruct E4 as [-> ->]. rewrite app_nil_r in H1. rewrite mn_declared in C.
    destruct (plan_zs uf rc fpow n gs _ b _ ys zs psi s1 E3 H1 _ C) as [_ L].
    assert (X : vid (dvar nx i) < cx_next c); [|lia]. apply Sm. rewrite (dr_current uf rc fpow n _ _ _ _ _ _ _ _ B). unfold declared. cbn [p_doms].
    assert (Li' : i < length bs) by (rewrite <- (f2_len _ _ _ (db_bs _ _ _ _ _ _ _ _ _ _ B)); apply nth_error_Some; congruence).
    unfold decl_doms. rewrite map_map. cbn [fst]. apply in_map_iff. destruct (nth_error bs i) as [b0|] eqn:Eb0; [|apply nth_error_None in Eb0; lia].
    exists (b0, nx + i). split; [reflexivity|]. clear - Eb0. revert i nx Eb0. induction bs as [|b bs IH]; intros i nx E; [destruct i; discriminate|]. cbn [length seq combine]. destruct i as [|i]; cbn [nth_error] in E.
    - left. rewrite Nat.add_0_r. congruence.
    - right. replace (nx + S i) with (S nx + i) by lia. now apply IH. }
  intros V. split.
  - intros (rho & HR & S0). assert (W : well_typed rho) by apply S0. destruct (proj1 (Mp rho)) as [S1 S2]; [exists rho; split; [intros v _; reflexivity|exact S0]|].
    assert (SV : dr_solution M stdD d bs V) by (apply (Sol V rho W HR), S1). split; [exact SV|]. intros (V' & SV' & Lt). apply S2.
    pose (rho' := dr_point (dr_vars d) nx V'). assert (W' : well_typed rho') by apply dr_point_typed. assert (HR' : dr_reads (dr_vars d) nx V' rho') by apply dr_point_reads.
    exists rho'. split; [apply (Sol V' rho' W' HR'), SV'|]. intros g' Hg'. destruct (f2_right _ _ _ _ (db_gs _ _ _ _ _ _ _ _ _ _ B) Hg') as (g & Hg & Mg).
    fold M. rewrite (Val V rho g g' HR (proj1 SV) Mg Hg), (Val V' rho' g g' HR' (proj1 SV') Mg Hg). exact (Lt g Hg).
  - intros [SV Op]. pose (rho := dr_point (dr_vars d) nx V). assert (W : well_typed rho) by apply dr_point_typed. assert (HR : dr_reads (dr_vars d) nx V rho) by apply dr_point_reads.
    destruct (proj2 (Mp rho)) as (rho1 & Ag & S1).
    + split; [apply (Sol V rho W HR), SV|]. intros (rho' & S' & Lt). apply Op. set (V' := names_at (dr_vars d) nx rho'). assert (HR' : dr_reads (dr_vars d) nx V' rho') by (apply names_reads; exact Nd).
      assert (SV' : dr_solution M stdD d bs V') by (apply (Sol V' rho' (proj1 S') HR'), S'). exists V'. split; [exact SV'|]. intros g Hg. destruct (f2_left _ _ _ _ (db_gs _ _ _ _ _ _ _ _ _ _ B) Hg) as (g' & Hg' & Mg).
      rewrite <- (Val V rho g g' HR (proj1 SV) Mg Hg), <- (Val V' rho' g g' HR' (proj1 SV') Mg Hg). exact (Lt g' Hg').
    + exists rho1. split; [exact (Nz V rho rho1 HR Ag)|exact S1].
Qed.
