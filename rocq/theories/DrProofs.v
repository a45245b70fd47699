(** Proofs about the .dr front end (C46). *)
From Coq Require Import ZArith Reals Lra Lia List Bool.
From Flocq Require Import IEEE754.BinarySingleNaN.
From Verif Require Import Dbl Syntax Sem SemProofs FormulaCons FormulaConsProofs Interval IEval StdInterp ExprAlg SpecAlg ExprAlgProofs AlgClosed SubstProofs AlgTop ExplainProofs IteElimProofs Contr Icp Theory Regular IteElim Sat Context SpecCtx
  Smt2 Smt2Proofs Minim Dr SpecDr.
Import ListNotations.
Local Notation R := Rdefinitions.R.

(** ** Runs of the context *)
Section Run.
  Variables (fold : expr -> expr -> option dbl) (K : eops) (pico : pico_t) (T : nat -> box -> list formula -> option tres) (mid : dbl -> dbl -> dbl) (precision : dbl).
  Notation run := (cx_run fold K pico T mid precision).
  Lemma cx_run_app a b c : run (a ++ b) c = match run a c with Some (c1, l1) => match run b c1 with Some (c2, l2) => Some (c2, l1 ++ l2) | None => None end | None => None end.
  Proof.
    revert c. induction a as [|o a IH]; intros c; cbn [app cx_run].
    - destruct (run b c) as [[c2 l2]|]; reflexivity.
    - destruct (cx_step _ _ _ _ _ _ o c) as [[c1 l1]|]; cbn [IEval.bind fst snd]; [|reflexivity]. rewrite IH.
      destruct (run a c1) as [[c2 l2]|]; cbn [IEval.bind fst snd]; [|reflexivity]. destruct (run b c2) as [[c3 l3]|]; cbn [IEval.bind fst snd]; [|reflexivity]. now rewrite app_assoc.
  Qed.
End Run.

Section Dr.
  Variables (uf : nat -> list R -> R) (rc : dbl -> dbl -> R) (fpow : dbl -> dbl -> dbl) (n : nat) (evl : expr -> option dbl).
  Notation M := (std uf rc).

  Definition sc_reads (sc : list (nat * var)) (V : nat -> R) (rho : env) : Prop := forall x v, assoc x sc = Some v -> rho v = V x.
  Lemma exp_ok sc e : forall p t, dr_exp fpow n sc e = (Val p, t) -> Forall (exact M) t -> forall V rho, sc_reads sc V rho -> ddef M stdD V e -> defE M stdD p rho /\ evalE M p rho = dval M V e.
  Proof.
    induction e as [d|x|a IHa b IHb|a IHa b IHb|a IHa b IHb|a IHa|o a IHa|o a IHa b IHb]; intros p t E Ht V rho HR HD; cbn [dr_exp] in E.
    1: { apply ret_val in E. destruct E as [-> ->]. split; [exact I|]. apply mk_const_ev. }
    1: { destruct (assoc x sc) as [v|] eqn:Ea; [|discriminate]. apply ret_val in E. destruct E as [-> ->]. split; [exact I|]. apply (HR x v Ea). }
    all: apply bind_val in E; destruct E as (p1 & t1 & t2 & E1 & E & ->); apply Forall_app in Ht; destruct Ht as [O1 O2].
    1, 2, 3, 6: apply bind_val in E; destruct E as (p2 & t3 & t4 & E2 & E & ->); apply Forall_app in O2; destruct O2 as [O2 O3].
    1: { destruct HD as [Da Db]. destruct (IHa _ _ E1 O1 V rho HR Da) as [X1 Y1]. destruct (IHb _ _ E2 O2 V rho HR Db) as [X2 Y2].
         destruct (mk_add_ev uf rc fpow n p1 p2 rho X1 X2 p t4 E O3) as [X3 Y3]. split; auto. rewrite Y3, Y1, Y2. reflexivity. }
    1: { destruct HD as [Da Db]. destruct (IHa _ _ E1 O1 V rho HR Da) as [X1 Y1]. destruct (IHb _ _ E2 O2 V rho HR Db) as [X2 Y2].
         destruct (mk_sub_ev uf rc fpow n p1 p2 rho X1 X2 p t4 E O3) as [X3 Y3]. split; auto. rewrite Y3, Y1, Y2. reflexivity. }
    1: { destruct HD as [Da Db]. destruct (IHa _ _ E1 O1 V rho HR Da) as [X1 Y1]. destruct (IHb _ _ E2 O2 V rho HR Db) as [X2 Y2].
         destruct (mk_mul_ev uf rc fpow n p1 p2 rho X1 X2 p t4 E O3) as [X3 Y3]. split; auto. rewrite Y3, Y1, Y2. reflexivity. }
    1: { destruct HD as (Da & Db & Dc). destruct (IHa _ _ E1 O1 V rho HR Da) as [X1 Y1]. destruct (IHb _ _ E2 O2 V rho HR Db) as [X2 Y2].
         rewrite <- Y1, <- Y2 in Dc. destruct (mk_bin_ev uf rc fpow o p1 p2 rho X1 X2 Dc p t4 E O3) as [X3 Y3]. split; auto. rewrite Y3, Y1, Y2. reflexivity. }
    - destruct (IHa _ _ E1 O1 V rho HR HD) as [X1 Y1]. destruct (mk_neg_ev uf rc fpow n p1 rho X1 p t2 E O2) as [X3 Y3]. split; auto. rewrite Y3, Y1. reflexivity.
    - destruct HD as [Da Dc]. destruct (IHa _ _ E1 O1 V rho HR Da) as [X1 Y1]. rewrite <- Y1 in Dc. destruct (mk_un_ev uf rc o p1 rho X1 Dc p t2 E O2) as [X3 Y3]. split; auto. rewrite Y3, Y1. reflexivity.
  Qed.
  Lemma d_and f g rho : defF M stdD f rho -> defF M stdD g rho -> defF M stdD (mk_and f g) rho. Proof. apply (c_and _ (closed_def M stdD rho)). Qed.
  Lemma d_or f g rho : defF M stdD f rho -> defF M stdD g rho -> defF M stdD (mk_or f g) rho. Proof. apply (c_or _ (closed_def M stdD rho)). Qed.
  Lemma d_not f rho : defF M stdD f rho -> defF M stdD (mk_not f) rho. Proof. apply (c_not _ (closed_def M stdD rho)). Qed.
  Lemma form_ok sc f : forall p t, dr_form fpow n sc f = (Val p, t) -> Forall (exact M) t -> forall V rho, sc_reads sc V rho -> fdef M stdD V f -> defF M stdD p rho /\ (holds M p rho <-> dtrue M V f).
  Proof.
    induction f as [o a b|f IHf g IHg|f IHf g IHg|f IHf g IHg|f IHf]; intros p t E Ht V rho HR HD; cbn [dr_form] in E;
      apply bind_val in E; destruct E as (p1 & t1 & t2 & E1 & E & ->); apply Forall_app in Ht; destruct Ht as [O1 O2];
      try (apply bind_val in E; destruct E as (p2 & t3 & t4 & E2 & E & ->); apply Forall_app in O2; destruct O2 as [O2 O3]).
    - destruct HD as [Da Db]. destruct (exp_ok sc a _ _ E1 O1 V rho HR Da) as [X1 Y1]. destruct (exp_ok sc b _ _ E2 O2 V rho HR Db) as [X2 Y2].
      destruct (mk_relm_ev uf rc fpow n (drel_op o) p1 p2 rho p t4 E O3 X1 X2) as [X3 Y3]. split; [exact X3|]. rewrite Y3, Y1, Y2. cbn [dtrue]. destruct o; apply iff_refl.
    - destruct HD as [Da Db]. destruct (IHf _ _ E1 O1 V rho HR Da) as [X1 Y1]. destruct (IHg _ _ E2 O2 V rho HR Db) as [X2 Y2]. apply ret_val in E. destruct E as [-> ->].
      split; [apply d_and; auto|]. rewrite mk_and_holds, Y1, Y2. apply iff_refl.
    - destruct HD as [Da Db]. destruct (IHf _ _ E1 O1 V rho HR Da) as [X1 Y1]. destruct (IHg _ _ E2 O2 V rho HR Db) as [X2 Y2]. apply ret_val in E. destruct E as [-> ->].
      split; [apply d_or; auto|]. rewrite mk_or_holds, Y1, Y2. apply iff_refl.
    - destruct HD as [Da Db]. destruct (IHf _ _ E1 O1 V rho HR Da) as [X1 Y1]. destruct (IHg _ _ E2 O2 V rho HR Db) as [X2 Y2]. apply ret_val in E. destruct E as [-> ->].
      split; [apply d_or; auto; apply d_not; auto|]. rewrite mk_or_holds, mk_not_holds, Y1, Y2. cbn [dtrue]. destruct (Classical_Prop.classic (dtrue M V f)); tauto.
    - destruct (IHf _ _ E1 O1 V rho HR HD) as [X1 Y1]. apply ret_val in E. destruct E as [-> ->]. split; [apply d_not; auto|]. rewrite mk_not_holds, Y1. apply iff_refl.
  Qed.
  Lemma collect_ok {A B} (g : A -> comp B) l : forall r t, collect g l = (Val r, t) -> Forall (exact M) t -> Forall2 (fun a b => exists t', g a = (Val b, t') /\ Forall (exact M) t') l r.
  Proof.
    induction l as [|a l IH]; intros r t E Ht; cbn [collect] in E.
    - apply ret_val in E. destruct E as [-> _]. constructor.
    - apply bind_val in E; destruct E as (p1 & t1 & t2 & E1 & E & ->); apply Forall_app in Ht; destruct Ht as [O1 O2].
      apply bind_val in E; destruct E as (p2 & t3 & t4 & E2 & E & ->); apply Forall_app in O2; destruct O2 as [O2 O3]. apply ret_val in E. destruct E as [-> ->].
      constructor; eauto.
  Qed.

  (** The scope after the first declarations. *)
  Definition sc_of (ds : list ddecl) (nx : nat) : list (nat * var) := rev (map (fun p => (dd_name (fst p), mkVar (snd p) CONTINUOUS)) (combine ds (seq nx (length ds)))).
  Lemma sc_of_snoc ds d nx : sc_of (ds ++ [d]) nx = (dd_name d, mkVar (nx + length ds) CONTINUOUS) :: sc_of ds nx.
  Proof.
    unfold sc_of. rewrite app_length. cbn [length]. rewrite seq_app.
    assert (C : combine (ds ++ [d]) (seq nx (length ds) ++ seq (nx + length ds) 1) = combine ds (seq nx (length ds)) ++ [(d, nx + length ds)]).
    { generalize nx. induction ds as [|e ds IH]; intros k; cbn [app length seq combine]; [now rewrite Nat.add_0_r|]. f_equal. replace (k + S (length ds)) with (S k + length ds) by lia. apply IH. }
    rewrite C, map_app, rev_app_distr. reflexivity.
  Qed.
  Lemma sc_of_in ds nx x v : In (x, v) (sc_of ds nx) -> exists i d, nth_error ds i = Some d /\ dd_name d = x /\ v = dvar nx i.
  Proof.
    unfold sc_of. rewrite <- in_rev. intros H. apply in_map_iff in H. destruct H as ((d & k) & E & H). cbn [fst snd] in E. injection E as <- <-.
    revert nx H. induction ds as [|e ds IH]; intros nx H; [destruct H|]. cbn [length seq combine] in H. destruct H as [E|H].
    - injection E as -> ->. exists 0, d. unfold dvar. rewrite Nat.add_0_r. auto.
    - destruct (IH _ H) as (i & d' & E1 & E2 & E3). exists (S i), d'. split; [exact E1|]. split; [exact E2|]. rewrite E3. unfold dvar. f_equal. lia.
  Qed.
  Lemma sc_reads_of ds0 ds nx V rho : dr_reads (ds0 ++ ds) nx V rho -> sc_reads (sc_of ds0 nx) V rho.
  Proof.
    intros H x v E. apply assoc_In in E. apply sc_of_in in E. destruct E as (i & d & E1 & <- & ->). apply (H i d). rewrite nth_error_app1; auto. apply nth_error_Some. congruence.
  Qed.
  Lemma decls_ok all ds : forall ds0 nx r t, all = ds0 ++ ds -> dr_decls fpow n evl ds (sc_of ds0 nx) (nx + length ds0) = (Val r, t) -> Forall (exact M) t ->
    fst r = sc_of all nx /\ exists bs, snd r = decl_ops bs (nx + length ds0) /\
      Forall2 (fun d b => bound_is M stdD evl all nx (dd_lb d) (fst b) /\ bound_is M stdD evl all nx (dr_ub d) (snd b)) ds bs.
  Proof.
    induction ds as [|d ds IH]; intros ds0 nx r t Ea E Ht; cbn [dr_decls] in E.
    - apply ret_val in E. destruct E as [-> _]. cbn [fst snd]. subst all. rewrite app_nil_r. split; [reflexivity|]. exists []. split; [reflexivity|constructor].
    - apply bind_val in E; destruct E as (p1 & t1 & t2 & E1 & E & ->); apply Forall_app in Ht; destruct Ht as [O1 O2].
      apply bind_val in E; destruct E as (p2 & t3 & t4 & E2 & E & ->); apply Forall_app in O2; destruct O2 as [O2 O3].
      apply bind_val in E; destruct E as (l & t5 & t6 & E3 & E & ->); apply Forall_app in O3; destruct O3 as [O3 O4].
      apply bind_val in E; destruct E as (u & t7 & t8 & E4 & E & ->); apply Forall_app in O4; destruct O4 as [O4 O5].
      apply bind_val in E; destruct E as (r' & t9 & t10 & E5 & E & ->); apply Forall_app in O5; destruct O5 as [O5 O6].
      apply ret_val in E. destruct E as [-> ->]. cbn [fst snd].
      assert (G : forall e p t, dr_exp fpow n (sc_of ds0 nx) e = (Val p, t) -> Forall (exact M) t -> forall l t', evaluate evl p = (Val l, t') -> bound_is M stdD evl all nx e l).
      { intros e p t Ep Op l0 t' El. unfold evaluate in El. destruct (evl p) as [c|] eqn:Ec; [|discriminate]. destruct (is_nan c) eqn:En; [discriminate|].
        apply ret_val in El. destruct El as [-> _]. split; [exact En|]. exists p. split; [exact Ec|]. intros V rho HR HD. apply (exp_ok _ _ _ _ Ep Op V rho); auto.
        apply (sc_reads_of ds0 (d :: ds)). now rewrite <- Ea. }
      assert (B1 := G _ _ _ E1 O1 _ _ E3).
      assert (B2 : bound_is M stdD evl all nx (dr_ub d) u).
      { unfold dr_ub. destruct (dd_ub d) as [e|]; [apply (G _ _ _ E2 O2 _ _ E4)|]. apply ret_val in E2. destruct E2 as [-> ->]. apply (G _ _ _ E1 O1 _ _ E4). }
      assert (Ea' : all = (ds0 ++ [d]) ++ ds) by (now rewrite <- app_assoc).
      assert (E5' : dr_decls fpow n evl ds (sc_of (ds0 ++ [d]) nx) (nx + length (ds0 ++ [d])) = (Val r', t9)).
      { rewrite sc_of_snoc, app_length. cbn [length]. replace (nx + (length ds0 + 1)) with (S (nx + length ds0)) by lia. exact E5. }
      destruct (IH (ds0 ++ [d]) nx r' t9 Ea' E5' O5) as (F1 & bs & F2 & F3). split; [exact F1|]. exists ((l, u) :: bs). split.
      + cbn [decl_ops]. rewrite F2, app_length. cbn [length]. replace (nx + (length ds0 + 1)) with (S (nx + length ds0)) by lia. reflexivity.
      + constructor; auto.
  Qed.
  Theorem calls_ok d nx ops gs t : dr_calls fpow n evl d nx = (Val (ops, gs), t) -> Forall (exact M) t -> exists bs fs,
    ops = decl_ops bs nx ++ map OAssert fs /\
    Forall2 (fun dd b => bound_is M stdD evl (dr_vars d) nx (dd_lb dd) (fst b) /\ bound_is M stdD evl (dr_vars d) nx (dr_ub dd) (snd b)) (dr_vars d) bs /\
    Forall2 (means_form M stdD (dr_vars d) nx) (dr_ctr d) fs /\ Forall2 (means_exp M stdD (dr_vars d) nx) (dr_cost d) gs.
  Proof.
    unfold dr_calls. intros E Ht.
    apply bind_val in E; destruct E as (r & t1 & t2 & E1 & E & ->); apply Forall_app in Ht; destruct Ht as [O1 O2].
    apply bind_val in E; destruct E as (fs & t3 & t4 & E2 & E & ->); apply Forall_app in O2; destruct O2 as [O2 O3].
    apply bind_val in E; destruct E as (gs' & t5 & t6 & E3 & E & ->); apply Forall_app in O3; destruct O3 as [O3 O4].
    apply ret_val in E. destruct E as [E ->]. injection E as -> ->.
    destruct (decls_ok (dr_vars d) (dr_vars d) [] nx r t1 eq_refl) as (F1 & bs & F2 & F3); auto. { cbn [length]. rewrite Nat.add_0_r. exact E1. }
    cbn [length] in F2. rewrite Nat.add_0_r in F2. exists bs, fs. split; [now rewrite F2|]. split; [exact F3|].
    assert (Rd : forall V rho, dr_reads (dr_vars d) nx V rho -> sc_reads (fst r) V rho).
    { intros V rho H. rewrite F1. apply (sc_reads_of (dr_vars d) []). now rewrite app_nil_r. }
    split.
    - apply (f2_imp _ _ _ _ (fun c f _ (H : exists t', dr_form fpow n (fst r) c = (Val f, t') /\ Forall (exact M) t') => match H with ex_intro _ t' (conj H1 H2) =>
        fun V rho HR HD => form_ok (fst r) c f t' H1 H2 V rho (Rd V rho HR) HD end) (collect_ok _ _ _ _ E2 O2)).
    - apply (f2_imp _ _ _ _ (fun c f _ (H : exists t', dr_exp fpow n (fst r) c = (Val f, t') /\ Forall (exact M) t') => match H with ex_intro _ t' (conj H1 H2) =>
        fun V rho HR HD => exp_ok (fst r) c f t' H1 H2 V rho (Rd V rho HR) HD end) (collect_ok _ _ _ _ E3 O3)).
  Qed.

  (** ** The problem posed *)
  Definition decl_doms (bs : list (dbl * dbl)) (nx : nat) : list (var * (R -> Prop)) := map (fun p => (mkVar (snd p) CONTINUOUS, between (fst (fst p)) (snd (fst p)))) (combine bs (seq nx (length bs))).
  Lemma problems_decls bs : forall nx p ops, (forall v, In v (map fst (p_doms p)) -> vid v < nx) ->
    problems (decl_ops bs nx ++ ops) (p, []) = problems ops ({| p_doms := p_doms p ++ decl_doms bs nx; p_asserts := p_asserts p |}, []).
  Proof.
    induction bs as [|[l u] bs IH]; intros nx p ops H; cbn [decl_ops app].
    - unfold decl_doms. cbn [length seq combine map]. rewrite app_nil_r. destruct p. reflexivity.
    - cbn [problems p_step]. set (v := mkVar nx CONTINUOUS).
      assert (Nv : ~ In v (map fst (p_doms p))) by (intros X; apply H in X; cbn in X; lia).
      assert (E : set_domain v (between l u) (declare v p) = {| p_doms := p_doms p ++ [(v, between l u)]; p_asserts := p_asserts p |}).
      { unfold declare. destruct (mem_var v (map fst (p_doms p))) eqn:Em. { apply mem_var_In in Em. tauto. }
        unfold set_domain. cbn [p_doms p_asserts]. f_equal. rewrite map_app. cbn [map fst]. rewrite (proj2 (var_eqb_eq v v) eq_refl). f_equal.
        rewrite <- (map_id (p_doms p)) at 2. apply map_ext_in. intros q Hq. destruct (var_eqb v (fst q)) eqn:Ev; auto. apply var_eqb_eq in Ev. destruct Nv. rewrite Ev. now apply in_map. }
      rewrite E, IH; cbn [p_doms p_asserts].
      + unfold decl_doms. cbn [length seq combine map fst snd]. rewrite <- app_assoc. reflexivity.
      + intros w Hw. rewrite map_app in Hw. apply in_app_iff in Hw. destruct Hw as [Hw|[<-|[]]]; [apply H in Hw; lia|cbn; lia].
  Qed.
  Lemma problems_asserts fs : forall p ops, problems (map OAssert fs ++ ops) (p, []) = problems ops ({| p_doms := p_doms p; p_asserts := p_asserts p ++ fs |}, []).
  Proof.
    induction fs as [|f fs IH]; intros p ops; cbn [map app problems p_step]. { rewrite app_nil_r. destruct p. reflexivity. }
    rewrite IH. unfold add_assert. cbn [p_doms p_asserts]. now rewrite <- app_assoc.
  Qed.
  Lemma problem_of bs fs nx fuel : problems ((decl_ops bs nx ++ map OAssert fs) ++ [OCheck fuel]) (p_empty, []) = [{| p_doms := decl_doms bs nx; p_asserts := fs |}].
  Proof. rewrite <- app_assoc, problems_decls by (intros v []). rewrite problems_asserts. reflexivity. Qed.

  (** The point at which the declared variables have the values of their names. *)
  Definition dr_point (ds : list ddecl) (nx : nat) (V : nat -> R) : env :=
    fun v => match vty v with CONTINUOUS => match nth_error ds (vid v - nx) with Some d => V (dd_name d) | None => 0%R end | _ => 0%R end.
  Lemma dr_point_typed ds nx V : well_typed (dr_point ds nx V).
  Proof. intros [i []]; unfold dr_point; cbn [vty typed_val]; auto. exists 0%Z. reflexivity. Qed.
  Lemma dr_point_reads ds nx V : dr_reads ds nx V (dr_point ds nx V).
  Proof. intros i d E. unfold dr_point, dvar. cbn [vty vid]. replace (nx + i - nx) with i by lia. now rewrite E. Qed.
  Lemma doms_reads ds bs nx V rho : dr_reads ds nx V rho -> Forall2 (fun dd b => between (fst b) (snd b) (V (dd_name dd))) ds bs ->
    forall v dm, In (v, dm) (decl_doms bs nx) -> dm (rho v).
  Proof.
    intros HR HB. unfold decl_doms. revert nx HR. induction HB as [|d b ds bs Hb HB IH]; intros nx HR v dm H; [destruct H|].
    cbn [length seq combine map fst snd] in H. destruct H as [E|H].
    - apply pair_equal_spec in E. destruct E as [<- <-]. specialize (HR 0 d eq_refl). unfold dvar in HR. rewrite Nat.add_0_r in HR. rewrite HR. exact Hb.
    - apply (IH (S nx)); auto. intros i e Ei. specialize (HR (S i) e Ei). unfold dvar in *. replace (S nx + i) with (nx + S i) by lia. exact HR.
  Qed.
  Lemma doms_reads' ds bs nx V rho : dr_reads ds nx V rho -> length ds = length bs -> (forall v dm, In (v, dm) (decl_doms bs nx) -> dm (rho v)) ->
    Forall2 (fun dd b => between (fst b) (snd b) (V (dd_name dd))) ds bs.
  Proof.
    unfold decl_doms. revert nx bs. induction ds as [|d ds IH]; intros nx [|b bs] HR L H; try discriminate; constructor.
    - specialize (H (mkVar nx CONTINUOUS) (between (fst b) (snd b)) (or_introl eq_refl)). specialize (HR 0 d eq_refl). unfold dvar in HR. rewrite Nat.add_0_r in HR. rewrite <- HR. exact H.
    - apply (IH (S nx)); auto; [|intros v dm Hv; apply H; right; exact Hv]. intros i e Ei. specialize (HR (S i) e Ei). unfold dvar in *. replace (S nx + i) with (nx + S i) by lia. exact HR.
  Qed.
  (** The check is about exactly the bounds and constraints of the file. *)
  Theorem dr_problem d nx ops gs t : dr_calls fpow n evl d nx = (Val (ops, gs), t) -> Forall (exact M) t -> exists bs p,
    Forall2 (fun dd b => bound_is M stdD evl (dr_vars d) nx (dd_lb dd) (fst b) /\ bound_is M stdD evl (dr_vars d) nx (dr_ub dd) (snd b)) (dr_vars d) bs /\
    (forall fuel, problems (ops ++ [OCheck fuel]) (p_empty, []) = [p]) /\
    forall V, (forall f, In f (dr_ctr d) -> fdef M stdD V f) ->
      (dr_solution M stdD d bs V <-> exists rho, well_typed rho /\ dr_reads (dr_vars d) nx V rho /\ (forall v dm, In (v, dm) (p_doms p) -> dm (rho v)) /\
        forall f, In f (p_asserts p) -> defF M stdD f rho /\ holds M f rho).
  Proof.
    intros E Ht. destruct (calls_ok d nx ops gs t E Ht) as (bs & fs & -> & HB & HF & _). exists bs, {| p_doms := decl_doms bs nx; p_asserts := fs |}.
    split; [exact HB|]. split; [intros fuel; apply problem_of|]. cbn [p_doms p_asserts]. intros V HD.
    assert (X : forall f, In f fs -> exists c, In c (dr_ctr d) /\ means_form M stdD (dr_vars d) nx c f).
    { clear - HF. intros f Hf. induction HF; [destruct Hf|]. destruct Hf as [<-|Hf]; [eexists; split; [left; reflexivity|auto]|]. destruct (IHHF Hf) as (c & ? & ?). exists c. split; [right|]; auto. }
    assert (Y : forall c, In c (dr_ctr d) -> exists f, In f fs /\ means_form M stdD (dr_vars d) nx c f).
    { clear - HF. intros f Hf. induction HF; [destruct Hf|]. destruct Hf as [<-|Hf]; [eexists; split; [left; reflexivity|auto]|]. destruct (IHHF Hf) as (c & ? & ?). exists c. split; [right|]; auto. }
    split.
    - intros [H1 H2]. exists (dr_point (dr_vars d) nx V). assert (HR := dr_point_reads (dr_vars d) nx V). split; [apply dr_point_typed|]. split; [exact HR|]. split; [apply (doms_reads (dr_vars d) bs nx V); auto|].
      intros f Hf. destruct (X f Hf) as (c & Hc & Mc). destruct (H2 c Hc) as [Dc Tc]. destruct (Mc V _ HR Dc) as [Df Hh]. split; [exact Df|]. now apply Hh.
    - intros (rho & _ & HR & H1 & H2). split.
      + apply (doms_reads' _ _ nx V rho); auto. clear - HB. induction HB; cbn [length]; congruence.
      + intros c Hc. split; [auto|]. destruct (Y c Hc) as (f & Hf & Mf). destruct (Mf V rho HR (HD c Hc)) as [_ Hh]. apply Hh. apply H2, Hf.
  Qed.
  Theorem dr_unsat d nx ops gs t r fuel : dr_calls fpow n evl d nx = (Val (ops, gs), t) -> Forall (exact M) t ->
    Forall2 (fun p (a : option box) => a = None -> ~ exists rho, solution M stdD p rho) (problems (ops ++ [OCheck fuel]) (p_empty, [])) [r] -> r = None ->
    exists bs, Forall2 (fun dd b => bound_is M stdD evl (dr_vars d) nx (dd_lb dd) (fst b) /\ bound_is M stdD evl (dr_vars d) nx (dr_ub dd) (snd b)) (dr_vars d) bs /\
    ~ exists V, dr_solution M stdD d bs V /\ forall rho f, dr_reads (dr_vars d) nx V rho -> In (OAssert f) ops -> regular M stdD f rho.
  Proof.
    intros E Ht HA Er. subst r. destruct (calls_ok d nx ops gs t E Ht) as (bs & fs & -> & HB & HM & _). exists bs. split; [exact HB|]. intros (V & (HV & HC) & HG).
    rewrite problem_of in HA. inversion HA as [|? ? ? ? Ha _]; subst. apply (Ha eq_refl).
    set (rho := dr_point (dr_vars d) nx V). assert (HR : dr_reads (dr_vars d) nx V rho) by apply dr_point_reads. exists rho. split; [apply dr_point_typed|].
    cbn [p_doms p_asserts]. split; [apply (doms_reads (dr_vars d) bs nx V); auto|]. intros f Hf.
    assert (X : exists c, In c (dr_ctr d) /\ means_form M stdD (dr_vars d) nx c f).
    { clear - HM Hf. induction HM; [destruct Hf|]. destruct Hf as [<-|Hf]; [eexists; split; [left; reflexivity|auto]|]. destruct (IHHM Hf) as (c & ? & ?). exists c. split; [right|]; auto. }
    destruct X as (c & Hc & Mc). destruct (HC c Hc) as [Dc Tc]. destruct (Mc V rho HR Dc) as [Df Hh]. apply Hh in Tc. split; [|exact Tc]. apply HG; auto. apply in_app_iff. right. now apply in_map.
  Qed.
End Dr.

(** ** Solve *)
Section Solve.
  Variables (fpow : dbl -> dbl -> dbl) (n : nat) (evl : expr -> option dbl).
  Variables (fold : expr -> expr -> option dbl) (K : eops) (pico : pico_t) (T : nat -> box -> list formula -> option tres) (mid : dbl -> dbl -> dbl) (precision : dbl) (eval : expr -> box -> ival).
  Notation run := (cx_run fold K pico T mid precision).
  Theorem solve_ok d models nx fuel lines t : dr_run fpow n evl fold K pico T mid precision eval d models nx fuel = (Val (Some lines), t) ->
    exists ops gs t0 c mops c' r t1, dr_calls fpow n evl d nx = (Val (ops, gs), t0) /\ run ops (cx_init nx) = Some (c, []) /\
      (match gs with [] => mops = [] /\ t1 = [] | _ => minimize fpow n gs c = (Val mops, t1) end) /\ t = t0 ++ t1 /\
      run (ops ++ mops ++ [OCheck fuel]) (cx_init nx) = Some (c', [r]) /\ lines = dr_print mid precision eval models gs r.
  Proof.
    unfold dr_run. intros E. apply bind_val in E. destruct E as ((ops & gs) & t0 & t1 & E0 & E & ->). cbn [fst snd] in E. unfold dr_solve in E.
    destruct (run ops (cx_init nx)) as [[c [|a l]]|] eqn:Er; [| |]; try (apply ret_val in E; destruct E; discriminate).
    apply bind_val in E. destruct E as (mops & t2 & t3 & E1 & E & ->). apply ret_val in E. destruct E as [E ->].
    destruct (run (mops ++ [OCheck fuel]) c) as [[c' [|r [|? ?]]]|] eqn:Ec; try discriminate. exists ops, gs, t0, c, mops, c', r, t2. rewrite app_nil_r.
    split; [exact E0|]. split; [exact Er|]. split. { destruct gs; [apply ret_val in E1; tauto|exact E1]. } split; [reflexivity|]. split; [|now injection E].
    rewrite cx_run_app, Er, Ec. reflexivity.
  Qed.
  (** Without cost: [unsat] is printed exactly when the check of the history answers so. *)
  Theorem solve_plain d models nx fuel lines t : dr_cost d = [] -> dr_run fpow n evl fold K pico T mid precision eval d models nx fuel = (Val (Some lines), t) ->
    exists ops c r, dr_calls fpow n evl d nx = (Val (ops, []), t) /\ run (ops ++ [OCheck fuel]) (cx_init nx) = Some (c, [r]) /\ (r = None <-> lines = [OutUnsat]).
  Proof.
    intros Hc E. destruct (solve_ok _ _ _ _ _ _ E) as (ops & gs & t0 & c & mops & c' & r & t1 & E0 & _ & Em & Et & E1 & El).
    assert (Eg : gs = []).
    { unfold dr_calls in E0. apply bind_val in E0; destruct E0 as (p1 & ? & ? & _ & E0 & _). apply bind_val in E0; destruct E0 as (p2 & ? & ? & _ & E0 & _). apply bind_val in E0; destruct E0 as (p3 & ? & ? & E3 & E0 & _).
      rewrite Hc in E3. cbn [collect] in E3. apply ret_val in E3. destruct E3 as [-> _]. apply ret_val in E0. destruct E0 as [E0 _]. now injection E0. }
    subst gs. destruct Em as [-> ->]. rewrite app_nil_r in Et. subst t0. exists ops, c', r. split; [exact E0|]. split; [exact E1|]. rewrite El. unfold dr_print. destruct r; split; intros X; congruence || discriminate.
  Qed.
End Solve.
