(** * The box and the stack of a context say what the assertions say (behind C28) *)
From Coq Require Import ZArith Reals Lra Lia List Bool Arith.
From Flocq Require Import IEEE754.BinarySingleNaN.
From Verif Require Import Dbl DblProofs Syntax Sem SemProofs FormulaCons FormulaConsProofs SpecForm Nnf NnfProofs PredAbs PredAbsProofs Tseitin TseitinProofs ConsUnfolded
  Scoped SpecScoped ScopedProofs Interval IntervalProofs MathConv MathConvProofs IEval Contr Icp IcpTop Filter FilterProofs Theory IteElim SpecIte IteElimProofs
  Regular RegularProofs Wff WffProofs Sat Context CtxStruct SatSem CdclProofs SpecCtx SpecModel SpecWeak CtxBox CtxSem CtxHom CtxSat CtxDeltaInv CtxDom SpecFaith.
Import ListNotations.
Local Notation R := Rdefinitions.R.

(** ** Counters only grow *)
Section Next.
  Variable fold : expr -> expr -> option dbl.
  Lemma pa_visit_le f : forall s g s', pa_visit fold f s = (g, s') -> pa_next s <= pa_next s'.
  Proof.
    assert (At : forall f s g s', pa_atomic f s = (g, s') -> pa_next s <= pa_next s').
    { intros f0 s0 g0 s0' E. unfold pa_atomic in E. destruct (pa_find f0 s0); injection E as <- <-; cbn [pa_next]; lia. }
    assert (NAt : forall f s g s', pa_neg_atomic f s = (g, s') -> pa_next s <= pa_next s').
    { intros f0 s0 g0 s0' E. unfold pa_neg_atomic in E. destruct (pa_atomic f0 s0) as [g1 s1] eqn:E1. injection E as <- <-. eauto. }
    assert (Sm : forall fs, (forall x, In x fs -> forall s g s', pa_visit fold x s = (g, s') -> pa_next s <= pa_next s') ->
      forall s r s', smap (pa_visit fold) fs s = (r, s') -> pa_next s <= pa_next s').
    { induction fs as [|x fs IH]; intros H s r s' E; cbn [smap] in E; [injection E as <- <-; auto|].
      destruct (pa_visit fold x s) as [x' s1] eqn:E1. destruct (smap (pa_visit fold) fs s1) as [r2 s2] eqn:E2. injection E as <- <-.
      pose proof (H x (or_introl eq_refl) _ _ _ E1). pose proof (IH (fun y Hy => H y (or_intror Hy)) _ _ _ E2). lia. }
    induction f as [| | v | op a b | fs IH | fs IH | h IH | vs h IH] using formula_ind'; intros s g s' E;
      cbn [pa_visit] in E; (destruct (pa_find _ s); [injection E as <- <-; lia|]); try (injection E as <- <-; lia).
    - destruct op; eauto.
    - rewrite Forall_forall in IH. destruct (smap (pa_visit fold) fs s) as [r s1] eqn:E1. injection E as <- <-. eapply Sm; eauto.
    - rewrite Forall_forall in IH. destruct (smap (pa_visit fold) fs s) as [r s1] eqn:E1. injection E as <- <-. eapply Sm; eauto.
    - destruct (pa_visit fold h s) as [g1 s1] eqn:E1. injection E as <- <-. eauto.
    - eauto.
  Qed.
  Lemma pa_all_le fs : forall s gs s', smap (pa_convert fold) fs s = (gs, s') -> pa_next s <= pa_next s'.
  Proof.
    induction fs as [|f fs IH]; intros s gs s' E; cbn [smap] in E; [injection E as <- <-; lia|].
    destruct (pa_convert fold f s) as [g s1] eqn:E1. destruct (smap _ fs s1) as [r s2] eqn:E2. injection E as <- <-.
    pose proof (pa_visit_le f _ _ _ E1). pose proof (IH _ _ _ E2). lia.
  Qed.
  Lemma learn_le E n s q : sat_learn fold E n s = Some q -> n <= snd q.
  Proof.
    unfold sat_learn. destruct (smap _ E _) as [gs p] eqn:Ep. intros H. destruct (lits_of _ _) as [L|]; cbn [bind] in H; [|discriminate]. injection H as <-. cbn [snd].
    exact (pa_all_le _ _ _ _ Ep).
  Qed.
  Lemma loop_le pico T k : forall b s n t o s' n' t', core_loop fold pico T k b s n t = Some (o, s', n', t') -> n <= n'.
  Proof.
    induction k as [|k IH]; intros b s n t o s' n' t' E; [discriminate|]. cbn [core_loop] in E.
    destruct (pico _ _ _ _) as [a| |]; try discriminate; [|injection E as <- <- <- <-; lia].
    destruct (sat_model s a) as [bm tm]. destruct tm as [|p tm]; [injection E as <- <- <- <-; lia|].
    destruct (theory_lits s (p :: tm)) as [fs|]; cbn [bind] in E; [|discriminate]. destruct (T _ _ _) as [[m|E0]|]; cbn [bind] in E; try discriminate; [injection E as <- <- <- <-; lia|].
    destruct (sat_learn fold E0 n s) as [q|] eqn:El; cbn [bind] in E; [|discriminate]. pose proof (learn_le _ _ _ _ El). pose proof (IH _ _ _ _ _ _ _ _ E). lia.
  Qed.
  Lemma add_formula_le (M : interp) f n s q : unfolded fold f -> bnd n (fvF f) -> sat_add_formula fold f n s = Some q -> n <= snd q.
  Proof.
    intros U B E. unfold sat_add_formula in E. destruct (ts_convert fold f n) as [[cs|] t] eqn:Et; cbn [bind] in E; [|discriminate].
    destruct (ts_convert_fresh M fold f n (Some cs) t U B Et) as (_ & N2 & _). destruct (smap (pa_convert fold) cs _) as [gs p] eqn:Ep.
    destruct (sat_add_clauses gs _) as [s2|]; cbn [bind] in E; [|discriminate]. injection E as <-. cbn [snd]. pose proof (pa_all_le _ _ _ _ Ep) as H. cbn [pa_next] in H. lia.
  Qed.
End Next.

(** ** if-then-else elimination of a formula without if-then-else and quantifiers *)
Lemma closed_qf : closedP (fun f => qf f = true).
Proof. split; try reflexivity; intros gs; cbn [qf]; apply forallb_forall. Qed.
Lemma process_qf (M : interp) fold K f n g s : qf f = true -> hasIteF f = false -> unfolded fold f -> ite_process fold K f n = (g, s) ->
  it_vars s = [] /\ it_next s = n /\ (forall rho, holds M g rho <-> holds M f rho) /\ forall P, closedP P -> P f -> P g.
Proof.
  intros Q I U Ep. unfold ite_process in Ep. destruct (iteF fold K f FTrue (it_init n)) as [f' s1] eqn:E1. injection Ep as <- <-.
  destruct (iteF_E _ (holds_hom M (fun _ => 0%R)) fold K f Q I U _ _ _ _ E1) as (A1 & A2 & A3 & _). split; [exact A2|]. split; [exact A3|]. split.
  - intros rho. destruct (iteF_E _ (holds_hom M rho) fold K f Q I U _ _ _ _ E1) as (_ & _ & _ & A4).
    unfold it_result. rewrite A1. cbn [it_init it_added]. destruct (formula_eqb f f' && true); [tauto|]. cbn [mk_conj_vec fold_left]. rewrite (E_mk_and _ (holds_hom M rho)), A4. cbn [holds]. tauto.
  - intros P C Pf. assert (C' : closedP (fun f => P f /\ qf f = true)) by (apply closed_both; [exact C|exact closed_qf]).
    destruct (iteF_flat fold K _ C' ltac:(intros vs h [_ X]; discriminate X) f I (conj Pf Q) _ _ _ _ E1) as (_ & _ & X & _). apply c_result; auto. rewrite A1. intros h [].
Qed.

(** ** Strict bounds of integer variables are not absorbed *)
Lemma strict_not b f : forall pol r b', filt f pol b = Some (r, b') -> strict_lit f pol = true ->
  (forall o v cs, bound_lit f = Some (o, v, cs) -> cs = [] \/ vty v <> CONTINUOUS) -> r = NotFiltered.
Proof.
  induction f as [| |v|o a c|fs IH|fs IH|f IH|vs f IH] using formula_ind'; intros pol r b' E S1 H; try discriminate S1.
  - assert (S2 : strict_lit (FRel o a c) pol = true) by exact S1. clear S1. unfold strict_lit in S2. cbn [lit_kind] in S2. cbn [filt] in E.
    assert (Vl : forall v, bound_lit (FRel o a c) = Some (o, v, consts_of (match a with EVar _ => c | _ => a end)) -> consts_of (match a with EVar _ => c | _ => a end) <> [] -> vty v <> CONTINUOUS).
    { intros v X N. destruct (H _ _ _ X) as [Y|Y]; [contradiction|exact Y]. }
    destruct o, pol; cbn [relop_neg negb] in *; try discriminate S2; unfold filt_gt, filt_geq in E;
      destruct a, c; try (injection E as <- _; reflexivity); cbn [bound_lit consts_of] in Vl;
      unfold upd_slb, upd_sub in E; specialize (Vl _ eq_refl ltac:(discriminate));
      match type of E with context [vty ?v] => destruct (vty v) end; try contradiction; try discriminate E; injection E as <- _; reflexivity.
  - cbn [filt] in E. apply (IH (negb pol) r b' E); [|exact H]. unfold strict_lit in *. cbn [lit_kind] in S1. exact S1.
Qed.
Lemma notf_nocs b f : forall pol r b', filt f pol b = Some (r, b') -> r <> NotFiltered -> exists o v cs, bound_lit f = Some (o, v, cs) /\ cs <> [].
Proof.
  induction f as [| |v|o a c|fs IH|fs IH|f IH|vs f IH] using formula_ind'; intros pol r b' E N; cbn [filt] in E; try (injection E as <- _; congruence).
  - destruct o, pol; cbn [negb] in E; unfold filt_eq, filt_gt, filt_geq in E; cbn [negb] in E; try (injection E as <- _; congruence);
      destruct a, c; try (injection E as <- _; congruence); cbn [bound_lit consts_of]; eexists _, _, _; (split; [reflexivity|discriminate]).
  - exact (IH _ _ _ E N).
Qed.

(** ** One scope *)
Lemma nodup_snoc {A} (l : list A) x : NoDup l -> ~ In x l -> NoDup (l ++ [x]).
Proof.
  intros H N. induction H as [|y l Hy H IH]; cbn [app]; [constructor; [intros []|constructor]|].
  constructor; [|apply IH; intros C; apply N; right; exact C]. intros C. apply in_app_or in C. destruct C as [C|[->|[]]]; [contradiction|]. apply N. left. reflexivity.
Qed.
Lemma in_box_getv rho b : box_ok b -> bvars b <> [] -> (in_box rho b <-> forall v, In v (bvars b) -> imem (rho v) (b_getv b v)).
Proof.
  intros K N. split.
  - intros [_ H] v Hv. unfold b_getv. apply H. apply idx0_nth. exact Hv.
  - intros H. assert (X : forall i v, nth_error (bvars b) i = Some v -> imem (rho v) (b_get b i)).
    { intros i v Hi. pose proof (H v (nth_error_In _ _ Hi)) as X. unfold b_getv in X. pose proof (idx0_nth b v (nth_error_In _ _ Hi)) as Y.
      destruct K as [Nd _]. rewrite NoDup_nth_error in Nd. rewrite (Nd i (b_idx0 b v)); [exact X|apply nth_error_Some; congruence|congruence]. }
    split; [|exact X]. rewrite b_empty_get. destruct (bvars b) as [|w l] eqn:E; [contradiction|]. exact (imem_nonempty _ _ (X 0 w eq_refl)).
Qed.
Section Level.
  Variables (M : interp) (fold : expr -> expr -> option dbl).
  Hypothesis RC : rc_ok M.
  Definition in_doms (p : problem) (rho : env) : Prop := forall v d, In (v, d) (p_doms p) -> d (rho v).
  Record faith (b : box) (st : list formula) (p : problem) : Prop := {
    ft_ok : box_ok b;
    ft_ph : phantom b;
    ft_nil : bvars b = [] -> b_empty b = false;
    ft_vars : forall v, In v (bvars b) <-> declared p v;
    ft_nd : NoDup (map fst (p_doms p));
    ft_pri : p_asserts p = [] -> st = [] /\ forall v d, In (v, d) (p_doms p) -> forall x, imem x (b_getv b v) <-> d x;
    ft_dom : forall rho, in_box rho b -> in_doms p rho;
    ft_sem : forall rho, well_typed rho -> (in_box rho b /\ (forall f, In f st -> holds M f rho)) <-> (in_doms p rho /\ forall f, In f (p_asserts p) -> holds M f rho);
    ft_stk : forall g, In g st -> exists f, In f (p_asserts p) /\ forall P, closedP P -> P f -> P g }.

  Lemma faith_init : faith box0 [] p_empty.
  Proof.
    assert (E : b_empty box0 = false) by reflexivity.
    split; try reflexivity.
    - split; [constructor|split; [reflexivity|repeat constructor]].
    - intros _ _ x. split; exact Logic.I.
    - constructor.
    - intros _. split; [reflexivity|]. intros v d [].
    - intros rho _ v d [].
    - intros rho W. split; intros _; [split; [intros v d []|intros f []]|]. split; [|intros f []]. split; [exact E|]. intros [|i] v H; discriminate H.
    - intros g [].
  Qed.
  (** A new variable *)
  Lemma faith_add b st p v b' d : faith b st p -> ~ In v (bvars b) -> box_ok b' -> bvars b' = bvars b ++ [v] -> (forall w, In w (bvars b) -> b_getv b' w = b_getv b w) ->
    (forall x, imem x (b_getv b' v) <-> d x) -> faith b' st {| p_doms := p_doms p ++ [(v, d)]; p_asserts := p_asserts p |}.
  Proof.
    intros F Nv K V Old New. assert (Nn : bvars b' <> []) by (rewrite V; destruct (bvars b); discriminate).
    assert (Nd : ~ In v (map fst (p_doms p))) by (intros C; apply Nv, (ft_vars _ _ _ F); exact C).
    assert (Ib : forall rho, in_box rho b' <-> in_box rho b /\ d (rho v)).
    { intros rho. rewrite in_box_getv by assumption. split.
      - intros H. split; [|apply New, H; rewrite V; apply in_or_app; right; left; reflexivity].
        destruct (bvars b) as [|w l] eqn:Eb; [|apply in_box_getv; [exact (ft_ok _ _ _ F)|rewrite Eb; discriminate|]; rewrite Eb; intros u Hu; rewrite <- (Old u Hu); apply H; rewrite V; apply in_or_app; left; exact Hu].
        split; [exact (ft_nil _ _ _ F Eb)|]. rewrite Eb. intros [|i] u X; discriminate X.
      - intros [H Hd] u Hu. rewrite V in Hu. apply in_app_or in Hu. destruct Hu as [Hu|[<-|[]]]; [|apply New; exact Hd].
        rewrite (Old u Hu). apply (proj1 (in_box_getv rho b (ft_ok _ _ _ F) ltac:(intros C; rewrite C in Hu; destruct Hu)) H u Hu). }
    assert (Id : forall rho, in_doms {| p_doms := p_doms p ++ [(v, d)]; p_asserts := p_asserts p |} rho <-> in_doms p rho /\ d (rho v)).
    { intros rho. unfold in_doms. cbn [p_doms]. split.
      - intros H. split; [|apply (H v d), in_or_app; right; left; reflexivity]. intros w e Hw. apply (H w e), in_or_app. left. exact Hw.
      - intros [H1 H2] w e Hw. apply in_app_or in Hw. destruct Hw as [Hw|[Hw|[]]]; [exact (H1 w e Hw)|]. injection Hw as <- <-. exact H2. }
    split; cbn [p_asserts p_doms].
    - exact K.
    - apply phantom_nonnil. exact Nn.
    - intros C. contradiction.
    - intros w. unfold declared. cbn [p_doms]. rewrite V, map_app, !in_app_iff. cbn [map In fst]. rewrite (ft_vars _ _ _ F w). reflexivity.
    - rewrite map_app. cbn [map fst]. apply nodup_snoc; [exact (ft_nd _ _ _ F)|exact Nd].
    - intros Na. destruct (ft_pri _ _ _ F Na) as [P1 P2]. split; [exact P1|]. intros w e Hw x. apply in_app_or in Hw. destruct Hw as [Hw|[Hw|[]]].
      + rewrite Old; [exact (P2 w e Hw x)|]. apply (ft_vars _ _ _ F). apply in_map_iff. exists (w, e). auto.
      + injection Hw as <- <-. exact (New x).
    - intros rho H. apply Id. apply Ib in H. split; [exact (ft_dom _ _ _ F rho (proj1 H))|apply H].
    - intros rho W. rewrite Ib, Id. pose proof (ft_sem _ _ _ F rho W). tauto.
    - exact (ft_stk _ _ _ F).
  Qed.
  Lemma faith_mem b st p v : faith b st p -> (mem_var v (map fst (p_doms p)) = true <-> In v (bvars b)).
  Proof. intros F. rewrite mem_var_In. symmetry. apply (ft_vars _ _ _ F). Qed.
  Lemma faith_declare b st p v : faith b st p -> faith (b_add_new b v) st (declare v p).
  Proof.
    intros F. unfold b_add_new, declare. destruct (b_has b v) eqn:E.
    - apply has_In in E. rewrite (proj2 (faith_mem b st p v F) E). exact F.
    - pose proof (nohas b v E) as N. destruct (mem_var v _) eqn:Em; [apply (faith_mem b st p v F) in Em; contradiction|].
      apply (faith_add b st p v (b_add b v)); auto; [apply b_add_ok; [apply F|exact N]|intros w Hw; apply add_getv; [apply F|exact N|exact Hw]|].
      intros x. rewrite (new_getv b v (ft_ok _ _ _ F) N). destruct (default_dom (vty v)) as [i|] eqn:Ed; [exact (dom0_default _ _ _ Ed)|].
      assert (Ec : dom0 (vty v) x) by (destruct (vty v); try discriminate; exact Logic.I). split; [intros _; exact Ec|intros _].
      destruct (Nat.eqb_spec (length (bvars b)) 0) as [Z|Z]; [|apply i_all_mem]. assert (Eb : bvars b = []) by (destruct (bvars b); [reflexivity|discriminate]).
      apply (ft_ph _ _ _ F); [exact Eb|exact (ft_nil _ _ _ F Eb)].
  Qed.
  Lemma set_domain_fst v d p : map fst (p_doms (set_domain v d p)) = map fst (p_doms p).
  Proof. unfold set_domain. cbn [p_doms]. rewrite map_map. apply map_ext_in. intros [w e] _. cbn [fst]. destruct (var_eqb v w) eqn:E; [apply var_eqb_eq in E; cbn [fst]; exact E|reflexivity]. Qed.
  Lemma pri_box b st p rho : faith b st p -> bvars b <> [] -> (forall v d, In (v, d) (p_doms p) -> forall x, imem x (b_getv b v) <-> d x) -> (in_box rho b <-> in_doms p rho).
  Proof.
    intros F N P. rewrite in_box_getv by (try apply F; exact N). split.
    - intros H v d Hd. apply (P v d Hd). apply H. apply (ft_vars _ _ _ F). apply in_map_iff. exists (v, d). auto.
    - intros H v Hv. apply (ft_vars _ _ _ F) in Hv. apply in_map_iff in Hv. destruct Hv as ([w d] & E & Hd). cbn [fst] in E. subst w. apply (P v d Hd). exact (H v d Hd).
  Qed.
  Lemma faith_set b st p v i d : faith b st p -> p_asserts p = [] -> declared p v -> i_ok i -> (forall x, imem x i <-> d x) -> faith (b_setv b v i) st (set_domain v d p).
  Proof.
    intros F Na Dv Ki Hi. destruct (ft_pri _ _ _ F Na) as [Es Pr]. pose proof (proj2 (ft_vars _ _ _ F v) Dv) as Iv.
    assert (Nn : bvars (b_setv b v i) <> []) by (intros C; change (bvars b = []) in C; rewrite C in Iv; destruct Iv).
    assert (Pr' : forall w e, In (w, e) (p_doms (set_domain v d p)) -> forall x, imem x (b_getv (b_setv b v i) w) <-> e x).
    { intros w e Hw x. unfold set_domain in Hw. cbn [p_doms] in Hw. apply in_map_iff in Hw. destruct Hw as ([w' e'] & E & Hw). cbn [fst] in E. destruct (var_eqb v w') eqn:Ev.
      - apply var_eqb_eq in Ev. injection E as <- <-. rewrite getv_setv_eq by (try exact Iv; apply F). exact (Hi x).
      - injection E as <- <-. rewrite getv_setv_ne; [exact (Pr _ _ Hw x)|apply F|exact Iv| |intros ->; rewrite (proj2 (var_eqb_eq w' w') eq_refl) in Ev; discriminate].
        apply (ft_vars _ _ _ F). apply in_map_iff. exists (w', e'). auto. }
    assert (K' : box_ok (b_setv b v i)) by (apply setv_ok; [apply F|exact Ki]).
    assert (Vs : forall w, In w (bvars (b_setv b v i)) <-> declared (set_domain v d p) w) by (intros w; unfold declared; rewrite set_domain_fst; apply (ft_vars _ _ _ F)).
    assert (Ib : forall rho, in_box rho (b_setv b v i) <-> in_doms (set_domain v d p) rho).
    { intros rho. rewrite in_box_getv by assumption. split.
      - intros H w e Hd. apply (Pr' w e Hd). apply H. apply Vs. apply in_map_iff. exists (w, e). auto.
      - intros H w Hw. apply Vs in Hw. apply in_map_iff in Hw. destruct Hw as ([u e] & E & Hd). cbn [fst] in E. subst u. apply (Pr' w e Hd). exact (H w e Hd). }
    split; auto.
    - apply phantom_nonnil. exact Nn.
    - contradiction.
    - rewrite set_domain_fst. exact (ft_nd _ _ _ F).
    - intros rho. apply Ib.
    - intros rho W. rewrite Ib, Es. cbn [set_domain p_asserts]. rewrite Na. split; intros [H _]; (split; [exact H|intros f []]).
    - rewrite Es. intros g [].
  Qed.
  Lemma faith_declare_dom b st p v i d : faith b st p -> (declared p v -> p_asserts p = []) -> i_ok i -> (forall x, imem x i <-> d x) ->
    faith (b_setv (b_add_new b v) v i) st (set_domain v d (declare v p)).
  Proof.
    intros F Na Ki Hi. unfold b_add_new, declare. destruct (b_has b v) eqn:E.
    - apply has_In in E. rewrite (proj2 (faith_mem b st p v F) E). apply (ft_vars _ _ _ F) in E. apply faith_set; auto.
    - pose proof (nohas b v E) as N. destruct (mem_var v _) eqn:Em; [apply (faith_mem b st p v F) in Em; contradiction|].
      assert (Nd : ~ In v (map fst (p_doms p))) by (intros C; apply N, (ft_vars _ _ _ F); exact C).
      assert (Eq : set_domain v d {| p_doms := p_doms p ++ [(v, dom0 (vty v))]; p_asserts := p_asserts p |} = {| p_doms := p_doms p ++ [(v, d)]; p_asserts := p_asserts p |}).
      { unfold set_domain. cbn [p_doms p_asserts]. f_equal. rewrite map_app. cbn [map fst]. rewrite (proj2 (var_eqb_eq v v) eq_refl). f_equal.
        rewrite <- (map_id (p_doms p)) at 2. apply map_ext_in. intros [w e] Hw. cbn [fst]. destruct (var_eqb v w) eqn:Ev; [|reflexivity]. apply var_eqb_eq in Ev. subst w. exfalso. apply Nd. apply in_map_iff. exists (v, e). auto. }
      rewrite Eq. pose proof (b_add_ok b v (ft_ok _ _ _ F) N) as Ka.
      assert (Iv : In v (bvars (b_add b v))) by (cbn [b_add bvars]; apply in_or_app; right; left; reflexivity).
      apply (faith_add b st p v); auto.
      + apply setv_ok; assumption.
      + intros w Hw. rewrite getv_setv_ne; [apply add_getv; [apply F|exact N|exact Hw]|exact Ka|exact Iv|cbn [b_add bvars]; apply in_or_app; left; exact Hw|congruence].
      + intros x. rewrite getv_setv_eq by assumption. exact (Hi x).
  Qed.
  Lemma faith_assert b st p f b' st' : faith b st p -> box_ok b' -> bvars b' = bvars b -> phantom b' -> (bvars b' = [] -> b_empty b' = false) ->
    (forall rho, in_box rho b' -> in_box rho b) ->
    (forall rho, well_typed rho -> (in_box rho b' /\ (forall g, In g st' -> holds M g rho)) <-> ((in_box rho b /\ (forall g, In g st -> holds M g rho)) /\ holds M f rho)) ->
    (forall g, In g st' -> In g st \/ forall P, closedP P -> P f -> P g) -> faith b' st' (add_assert f p).
  Proof.
    intros F K V Ph Ni Sub Sem Stk. split; auto.
    - intros v. rewrite V. apply (ft_vars _ _ _ F).
    - exact (ft_nd _ _ _ F).
    - cbn [add_assert p_asserts]. intros C. destruct (p_asserts p); discriminate C.
    - intros rho H. exact (ft_dom _ _ _ F rho (Sub rho H)).
    - intros rho W. rewrite (Sem rho W), (ft_sem _ _ _ F rho W). cbn [add_assert p_asserts]. change (in_doms (add_assert f p) rho) with (in_doms p rho). split.
      + intros [[H1 H2] H3]. split; [exact H1|]. intros h Hh. apply in_app_or in Hh. destruct Hh as [Hh|[<-|[]]]; auto.
      + intros [H1 H2]. split; [split; [exact H1|]|apply H2, in_or_app; right; left; reflexivity]. intros h Hh. apply H2, in_or_app. left. exact Hh.
    - cbn [add_assert p_asserts]. intros g Hg. destruct (Stk g Hg) as [H|H].
      + destruct (ft_stk _ _ _ F g H) as (h & H1 & H2). exists h. split; [apply in_or_app; left; exact H1|exact H2].
      + exists f. split; [apply in_or_app; right; left; reflexivity|exact H].
  Qed.
End Level.

(** ** The calls *)
Section Calls.
  Variables (M : interp) (D : pdom) (fold : expr -> expr -> option dbl) (K : eops) (pico : pico_t) (T : nat -> box -> list formula -> option tres)
    (mid : dbl -> dbl -> dbl) (precision : dbl) (n : nat).
  Hypothesis RC : rc_ok M.
  Notation step := (cx_step fold K pico T mid precision). Notation run := (cx_run fold K pico T mid precision).
  Notation op_ok := (op_ok_q M D fold K n False).
  Notation faith := (faith M).

  Lemma exact_gap f rho : exact_bound f -> gap_free f rho.
  Proof. intros X St. destruct (bound_lit f) as [[[o v] cs]|] eqn:E; [|exact Logic.I]. intros Tv c Hc. destruct (X o v cs E) as [->|[_ H]]; [destruct Hc|]. exfalso. exact (H St Tv). Qed.
  Lemma exact_absorbed f b r b' : exact_bound f -> filter_assertion f b = Some (r, b') -> r <> NotFiltered -> exact_lit f true.
  Proof.
    intros X E N. destruct (notf_nocs b f true r b' E N) as (o & v & cs & Eb & Nc). destruct (X o v cs Eb) as [C|[[c ->] H]]; [contradiction|].
    exists o, v, c. split; [exact Eb|]. intros St. exfalso. apply N. apply (strict_not b f true r b' E St). intros o' v' cs' E'. right. assert (v' = v) by congruence. subst v'. auto.
  Qed.
  Definition small (c : ctx) (p : problem) : Prop := forall v, declared p v -> vid v < cx_next c.
  Lemma assert_faith f c b saved p c' : csim c b saved -> faith b (sv_vec (cx_stack c)) p -> small c p ->
    wfF (fun v => declared p v /\ vty v <> BOOLEAN) (fun v => declared p v /\ vty v = BOOLEAN) (fun v => False) f -> exact_bound f -> delta_op fold p (OAssert f) ->
    cx_assert fold K f c = Some c' -> exists b', csim c' b' saved /\ faith b' (sv_vec (cx_stack c')) (add_assert f p) /\ cx_next c <= cx_next c'.
  Proof.
    intros H F Sm Wf Xb (Ni & Un & Nf) E. pose proof (ft_ok _ _ _ _ F) as Kb. pose proof (wfF_fin _ _ _ f Wf) as Fin.
    assert (Od : forall v, In v (fvF f) -> declared p v) by (intros v Hv; destruct (proj2 (wf_fv _ _ _) f Wf v Hv) as [Y|Y]; apply Y).
    assert (Fv : forall v, In v (fvF f) -> In v (bvars b)) by (intros v Hv; apply (ft_vars _ _ _ _ F); auto).
    pose proof (wf_qf _ _ _ f (fun v C => C) Wf) as Qf.
    unfold cx_assert in E. destruct (is_true f) eqn:Tf.
    { assert (c' = c) by congruence. subst c'. exists b. split; [exact H|]. split; [|lia]. apply (faith_assert M b (sv_vec (cx_stack c)) p f b); auto; try apply F.
      intros rho W. destruct f; try discriminate. cbn [holds]. tauto. }
    rewrite (csim_box _ _ _ H) in E. cbn [bind] in E. destruct (b_empty b) eqn:Eb.
    { assert (c' = c) by congruence. subst c'. exists b. split; [exact H|]. split; [|lia]. apply (faith_assert M b (sv_vec (cx_stack c)) p f b); auto; try apply F.
      intros rho W. split; [intros [[C _] _]; congruence|intros [X _]; exact X]. }
    assert (Box : forall b1, cx_set_box b1 c = Some c' -> faith b1 (sv_vec (cx_stack c)) (add_assert f p) -> exists b', csim c' b' saved /\ faith b' (sv_vec (cx_stack c')) (add_assert f p) /\ cx_next c <= cx_next c').
    { intros b1 E1 F1. destruct (csim_set b1 c b saved H) as (c1 & G1 & G2 & G3 & G4 & G5 & _). rewrite G1 in E1. assert (c1 = c') by congruence. subst c1.
      exists b1. split; [exact G2|]. rewrite G3. split; [exact F1|]. rewrite G5. lia. }
    destruct (is_false f) eqn:Ff.
    { assert (Eff : f = FFalse) by (destruct f; try discriminate; reflexivity). apply (Box _ E).
      assert (Nn : bvars (b_set_empty b) <> []).
      { intros C1. change (bvars b = []) in C1. specialize (Nf Eff). destruct (p_doms p) as [|[w d] l] eqn:Ed; [contradiction|].
        assert (Hw : In w (bvars b)) by (apply (ft_vars _ _ _ _ F); unfold declared; rewrite Ed; left; reflexivity). rewrite C1 in Hw. destruct Hw. }
      assert (No : forall rho, ~ in_box rho (b_set_empty b)) by (intros rho [Y _]; unfold b_empty, b_set_empty in Y; cbn [bvals] in Y; destruct (bvals b); discriminate Y).
      apply (faith_assert M b (sv_vec (cx_stack c)) p f); auto; [exact (b_set_empty_ok b Kb)|apply phantom_nonnil; exact Nn|contradiction|intros rho Y; destruct (No rho Y)|].
      intros rho W. split; [intros [Y _]; destruct (No rho Y)|]. rewrite Eff. intros [_ []]. }
    destruct (filter_assertion f b) as [[r b1]|] eqn:Ef; cbn [bind fst snd] in E; [|discriminate].
    destruct (filter_shrinks M f b b1 r RC Kb Fv Fin Ef) as (Kb1 & V1 & Sb1).
    pose proof (filter_phantom M f b r b1 RC Kb Fv Fin Ef (ft_ph _ _ _ _ F)) as Ph1.
    assert (Nn : bvars b1 = [] -> b_empty b1 = false).
    { intros C1. destruct (is_simple_relational f) eqn:Si.
      - destruct (filt_lit f Si) as (_ & _ & _ & _ & _ & Nv). destruct (fvF f) as [|v l] eqn:Efv; [contradiction|]. pose proof (Fv v (or_introl eq_refl)) as Hv. rewrite <- V1, C1 in Hv. destruct Hv.
      - rewrite (filt_same f true b r b1 Ef Si). exact Eb. }
    assert (Kp : forall rho, in_box rho b -> holds M f rho -> in_box rho b1) by (intros rho Y Z; exact (filter_keeps M f b b1 r RC Kb Fv Fin Ef rho Y Z (exact_gap f rho Xb))).
    assert (Filt : r <> NotFiltered -> faith b1 (sv_vec (cx_stack c)) (add_assert f p)).
    { intros Nr. pose proof (exact_absorbed f b r b1 Xb Ef Nr) as Xl. apply (faith_assert M b (sv_vec (cx_stack c)) p f); auto.
      intros rho W. pose proof (filter_exact M f b b1 r RC Kb Fv Fin Ef Nr Xl rho) as Fe. split.
      - intros [Y1 Y2]. split; [split; [exact (Sb1 rho Y1)|exact Y2]|exact (Fe Y1)].
      - intros [[Y1 Y2] Y3]. split; [exact (Kp rho Y1 Y3)|exact Y2]. }
    destruct r; try (apply (Box _ E), Filt; discriminate).
    destruct (ite_process fold K f (cx_next c)) as [g s] eqn:Ep.
    destruct (process_qf M fold K f (cx_next c) g s Qf Ni Un Ep) as (P1 & P2 & P3 & P4). rewrite P1 in E. cbn [fold_left] in E.
    destruct (csim_set b1 c b saved H) as (c1 & E1 & H1 & X1 & X2 & X3 & _). rewrite E1 in E. cbn [bind] in E.
    destruct (sat_add_formula fold g (it_next s) (cx_sat c1)) as [[t nx]|] eqn:Ea; cbn [bind fst snd] in E; [|discriminate].
    assert (Ec : cx_with_sat t nx (cx_push_stack g c1) = c') by congruence. clear E. exists b1. split; [|split].
    - rewrite <- Ec. eapply csim_frame; [exact H1|reflexivity| |].
      + cbn [cx_with_sat cx_push_stack cx_stack]. eapply vsim_back. apply H1.
      + cbn [cx_with_sat cx_push_stack cx_sat]. eapply add_formula_sim; [apply H1|exact Ea].
    - assert (Es : sv_vec (cx_stack c') = sv_vec (cx_stack c) ++ [g]) by (rewrite <- Ec; cbn [cx_with_sat cx_push_stack cx_stack sv_push_back sv_vec]; rewrite X1; reflexivity).
      rewrite Es. apply (faith_assert M b (sv_vec (cx_stack c)) p f); auto.
      + intros rho W. split.
        * intros [Y1 Y2]. split; [split; [exact (Sb1 rho Y1)|intros h Hh; apply Y2, in_or_app; left; exact Hh]|]. apply P3, Y2, in_or_app. right. left. reflexivity.
        * intros [[Y1 Y2] Y3]. split; [exact (Kp rho Y1 Y3)|]. intros h Hh. apply in_app_or in Hh. destruct Hh as [Hh|[<-|[]]]; [exact (Y2 h Hh)|]. apply P3. exact Y3.
      + intros h Hh. apply in_app_or in Hh. destruct Hh as [Hh|[<-|[]]]; [left; exact Hh|right; exact P4].
    - rewrite <- Ec. cbn [cx_with_sat cx_next]. rewrite <- P2. apply (add_formula_le fold M g (it_next s) (cx_sat c1) (t, nx)); [exact (P4 _ (closed_unf fold) Un)| |exact Ea].
      rewrite P2. apply (P4 _ (closed_bnd (cx_next c))). intros v Hv. apply Sm. auto.
  Qed.
  Lemma check_le k c r c' : cx_check fold pico T mid precision k c = Some (r, c') -> cx_next c <= cx_next c'.
  Proof.
    intros E. unfold cx_check in E. destruct (check_core fold pico T k c) as [[ob c1]|] eqn:Ec; cbn [bind] in E; [|discriminate].
    assert (X : cx_next c <= cx_next c1).
    { unfold check_core in Ec. destruct (cx_box c) as [b|]; cbn [bind] in Ec; [|discriminate]. destruct (b_empty b); [injection Ec as _ <-; lia|].
      destruct (existsb is_false _); [injection Ec as _ <-; lia|]. destruct (sv_vec (cx_stack c)) as [|f st]; [injection Ec as _ <-; lia|].
      destruct (match f :: st with [f0] => is_true f0 | _ => false end); [injection Ec as _ <-; lia|].
      destruct (core_loop _ _ _ _ _ _ _ _) as [[[[ob' s'] nx'] t']|] eqn:El; cbn [bind] in Ec; [|discriminate]. injection Ec as _ <-. cbn [cx_next]. exact (loop_le fold pico T k _ _ _ _ _ _ _ _ El). }
    destruct ob as [m|].
    - destruct (tighten mid precision m) as [m1|]; cbn [bind] in E; [|discriminate]. injection E as <- <-. exact X.
    - injection E as <- <-. exact X.
  Qed.

  Record hist (c : ctx) (b : box) (saved : list level) (news : list var) (p : problem) (ps : list problem) : Prop := {
    hi_sim : csim c b saved;
    hi_cur : faith b (sv_vec (cx_stack c)) p;
    hi_sav : Forall2 (fun l q => faith (v_box l) (v_stack l) q) saved ps;
    hi_n : n <= cx_next c;
    hi_news : forall v, In v news -> vid v < cx_next c;
    hi_small : forall q, In q (p :: ps) -> small c q }.
  Lemma declared_dom v d p w : declared (set_domain v d p) w <-> declared p w. Proof. unfold declared. rewrite set_domain_fst. reflexivity. Qed.
  Lemma declared_declare v p w : declared (declare v p) w -> declared p w \/ w = v.
  Proof. unfold declare. destruct (mem_var v _); [auto|]. unfold declared. cbn [p_doms]. rewrite map_app, in_app_iff. cbn [map In fst]. intros [H|[H|[]]]; auto. Qed.
  Lemma hist_step o c b saved news p ps c' a : hist c b saved news p ps -> op_ok news p o -> delta_op fold p o -> exact_op o -> step o c = Some (c', a) ->
    exists b' saved', hist c' b' saved' (news_step o news) (fst (p_step o (p, ps))) (snd (p_step o (p, ps))).
  Proof.
    intros [S1 S2 S3 S4 S5 S6] Ok De Ex E.
    assert (Kn : forall v, known n news v -> vid v < cx_next c) by (intros v [Y|Y]; [lia|exact (S5 v Y)]).
    destruct o as [w|v m|v l u m|v l u|f| | |k]; cbn [cx_step op_ok_q delta_op exact_op p_step news_step fst snd] in *.
    - destruct (Nat.eqb_spec (vid w) (cx_next c)) as [Ew|]; [|discriminate]. injection E as <- <-. exists b, saved. split; cbn [cx_with_next cx_next cx_stack]; auto.
      + apply next_sim. exact S1.
      + intros v [<-|Hv]; [lia|]. specialize (S5 v Hv). lia.
      + intros q Hq v Hv. cbn [cx_with_next cx_next]. specialize (S6 q Hq v Hv). lia.
    - destruct (cx_declare v m c) as [c1|] eqn:E1; cbn [bind] in E; [|discriminate]. injection E as <- <-. destruct (declare_sim _ _ _ _ _ _ S1 E1) as (A1 & A2 & A3 & A4).
      exists (b_add_new b v), saved. split; rewrite ?A4; auto.
      + rewrite A2. apply faith_declare; auto.
      + intros q [<-|Hq] w Hw; rewrite A4; [|exact (S6 q (or_intror Hq) w Hw)]. apply declared_declare in Hw. destruct Hw as [Hw| ->]; [exact (S6 p (or_introl eq_refl) w Hw)|exact (Kn v Ok)].
    - destruct (cx_declare v m c) as [c1|] eqn:E1; cbn [bind] in E; [|discriminate]. destruct (cx_set_interval v l u c1) as [c2|] eqn:E2; cbn [bind] in E; [|discriminate]. injection E as <- <-.
      destruct (declare_sim _ _ _ _ _ _ S1 E1) as (A1 & A2 & A3 & A4). destruct (set_interval_sim _ _ _ _ _ _ _ A1 E2) as (B1 & B2 & B3 & B4). destruct Ok as (O1 & _ & O3 & O4 & _).
      exists (b_setv (b_add_new b v) v (mk_ival l u)), saved. split; rewrite ?B4, ?A4; auto.
      + rewrite B2, A2. apply faith_declare_dom; auto; [apply mk_ival_ok|]. intros x. exact (mk_ival_mem x l u O3 O4).
      + intros q [<-|Hq] w Hw; rewrite B4, A4; [|exact (S6 q (or_intror Hq) w Hw)]. apply declared_dom, declared_declare in Hw. destruct Hw as [Hw| ->]; [exact (S6 p (or_introl eq_refl) w Hw)|exact (Kn v O1)].
    - destruct (cx_set_interval v l u c) as [c2|] eqn:E2; cbn [bind] in E; [|discriminate]. injection E as <- <-.
      destruct (set_interval_sim _ _ _ _ _ _ _ S1 E2) as (B1 & B2 & B3 & B4). destruct Ok as (O1 & _ & O3 & O4 & _).
      exists (b_setv b v (mk_ival l u)), saved. split; rewrite ?B4; auto.
      + rewrite B2. apply faith_set; auto; [apply mk_ival_ok|]. intros x. exact (mk_ival_mem x l u O3 O4).
      + intros q [<-|Hq] w Hw; rewrite B4; [|exact (S6 q (or_intror Hq) w Hw)]. apply declared_dom in Hw. exact (S6 p (or_introl eq_refl) w Hw).
    - destruct (cx_assert fold K f c) as [c1|] eqn:E1; cbn [bind] in E; [|discriminate]. injection E as <- <-. destruct Ok as [Wf _].
      destruct (assert_faith f c b saved p c1 S1 S2 (S6 p (or_introl eq_refl))) as (b' & A1 & A2 & A3); auto.
      { revert Wf. apply wf_mono; auto. intros v [[] _]. }
      exists b', saved. split; auto; [lia|intros v Hv; specialize (S5 v Hv); lia|].
      intros q [<-|Hq] w Hw; [specialize (S6 p (or_introl eq_refl) w Hw)|specialize (S6 q (or_intror Hq) w Hw)]; lia.
    - destruct (cx_push_sim c b saved S1) as (c1 & E1 & H1 & H2 & H3). rewrite E1 in E. cbn [bind] in E. injection E as <- <-.
      exists b, (lev c b :: saved). assert (Es : sv_vec (cx_stack c1) = sv_vec (cx_stack c)) by (injection H2 as Es _; exact Es). destruct H3 as (H3 & _).
      split; rewrite ?H3, ?Es; auto. intros q Hq w Hw. rewrite H3. destruct Hq as [<-|[<-|Hq]]; [exact (S6 p (or_introl eq_refl) w Hw)|exact (S6 p (or_introl eq_refl) w Hw)|exact (S6 q (or_intror Hq) w Hw)].
    - destruct S3 as [|l q saved ps F1 F2].
      { exfalso. pose proof (step_sim fold K pico T mid precision OPop c b [] c' a S1 E) as X. exact X. }
      destruct (cx_pop_sim c b l saved S1) as (c1 & E1 & H1 & H2 & H3 & _). rewrite E1 in E. cbn [bind] in E. injection E as <- <-. cbn [fst snd].
      exists (v_box l), saved. assert (Es : sv_vec (cx_stack c1) = v_stack l) by (rewrite <- H2; reflexivity). split; rewrite ?H3, ?Es; auto.
      intros q' Hq w Hw. rewrite H3. exact (S6 q' (or_intror Hq) w Hw).
    - destruct (cx_check fold pico T mid precision k c) as [[r c1]|] eqn:E1; cbn [bind fst snd] in E; [|discriminate]. injection E as <- <-.
      destruct (check_sim _ _ _ _ _ _ _ _ _ _ _ S1 E1) as [A1 A2]. pose proof (check_le _ _ _ _ E1) as Le. exists b, saved. split; rewrite ?A2; auto; [lia|intros v Hv; specialize (S5 v Hv); lia|].
      intros q Hq w Hw. specialize (S6 q Hq w Hw). lia.
  Qed.
  Lemma hist_run ops : forall c b saved news p ps c' a, hist c b saved news p ps -> admissible_q M D fold K n False ops news (p, ps) -> delta_ops fold ops (p, ps) -> Forall exact_op ops ->
    run ops c = Some (c', a) -> exists b' saved' news' ps', hist c' b' saved' news' (fst (fold_left (fun st o => p_step o st) ops (p, ps))) ps'.
  Proof.
    induction ops as [|o ops IH]; intros c b saved news p ps c' a H Ad De Ex E; cbn [cx_run fold_left] in *; [assert (c' = c) by congruence; subst c'; eauto 8|].
    destruct (step o c) as [[c1 a1]|] eqn:E1; cbn [bind fst snd] in E; [|discriminate]. destruct (run ops c1) as [[c2 a2]|] eqn:E2; cbn [bind fst snd] in E; [|discriminate]. assert (c2 = c') by congruence. subst c2.
    cbn [admissible_q delta_ops fst] in Ad, De. destruct Ad as [A1 A2], De as [D1 D2]. inversion Ex as [|x l X1 X2]; subst x l.
    destruct (hist_step o c b saved news p ps c1 a1 H A1 D1 X1 E1) as (b1 & sv1 & H1). destruct (p_step o (p, ps)) as [p1 ps1]. cbn [fst snd] in H1.
    exact (IH c1 b1 sv1 _ p1 ps1 c' a2 H1 A2 D2 X2 E2).
  Qed.
  Lemma hist_init : hist (cx_init n) box0 [] [] p_empty [].
  Proof.
    split; auto; [apply cx_init_sim|exact (faith_init M)|intros v []|]. intros q [<-|[]] v [].
  Qed.
  (** The points of the box at which the stack holds are those that satisfy the assertions. *)
  Theorem faithful ops c a : admissible M D fold K n ops [] (p_empty, []) -> delta_ops fold ops (p_empty, []) -> Forall exact_op ops -> run ops (cx_init n) = Some (c, a) ->
    exists b, cx_box c = Some b /\ faith b (sv_vec (cx_stack c)) (current ops) /\ small c (current ops).
  Proof.
    intros Ad De Ex E. destruct (hist_run ops _ _ _ _ _ _ _ _ hist_init Ad De Ex E) as (b & sv & nw & ps & [H1 H2 _ _ _ H6]). exists b.
    split; [exact (csim_box _ _ _ H1)|]. split; [exact H2|exact (H6 _ (or_introl eq_refl))].
  Qed.
End Calls.
