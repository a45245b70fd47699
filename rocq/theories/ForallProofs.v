(** * Pruning with counterexamples removes no solution of a quantified constraint (behind C33) *)
From Coq Require Import ZArith Reals Lra Lia List Bool Arith.
From Flocq Require Import IEEE754.BinarySingleNaN.
From Verif Require Import Dbl DblProofs Syntax Sem SemProofs FormulaCons FormulaConsProofs SpecForm Nnf NnfProofs PredAbs PredAbsProofs
  Scoped SpecScoped Interval IntervalProofs MathConv MathConvProofs IEval IEvalProofs Contr ContrProofs IbexConv IbexConvProofs Icp IcpProofs IcpTop IcpPar IcpParProofs IcpParTop Filter FilterProofs Theory ExplainProofs TheoryProofs TheoryTop TheorySat
  IteElim SpecIte Regular Wff WffProofs Sat Context CtxStruct SatSem CdclProofs SpecCtx CtxBox CtxSem CtxRun CtxInv CtxTop SpecModel CtxModel CtxSat CtxDom CtxModelTop ContrFull TheoryFull TheoryUsed ExprAlg DeltaStr Forall SpecForall DrProofs ForallInner.
Import ListNotations.
Local Notation R := Rdefinitions.R.

(** ** The contractor generated for the body *)
Section Gen.
  Variables (M : interp) (D : pdom) (esub : expr -> expr -> expr) (eneg : expr -> expr) (n : nat) (use_p : bool) (vars vs : list var) (P : var -> Prop).
  Definition shape (c : contractor) : Prop := c_noint c /\ c_in P vs c.
  Lemma noint_list cs : fold_right (fun c' acc => c_noint c' /\ acc) True cs <-> Forall c_noint cs.
  Proof. induction cs as [|a cs IH]; cbn; split; intros H; auto; [constructor; tauto|inversion H; subst; tauto]. Qed.
  Lemma shape_seq l : shape (CSeq l) <-> Forall shape l.
  Proof.
    unfold shape. cbn [c_noint c_in]. rewrite noint_list, (cin_list P vs), !Forall_forall. split.
    - intros [X Y] c Hc. split; auto.
    - intros X. split; intros c Hc; apply X, Hc.
  Qed.
  Lemma shape_join l : shape (CJoin l) <-> Forall shape l.
  Proof. exact (shape_seq l). Qed.
  Lemma fwd_shape f c : (forall v, In v (fvF f) -> P v) -> mk_fwd esub eneg vars n f = Some c -> shape c.
  Proof. intros H. unfold mk_fwd. destruct (ibex_convert esub eneg vars n f) as [[r|]| | |]; try discriminate; intros [= <-]; split; cbn [c_noint c_in]; auto. Qed.
  Lemma poly_shape fs c : (forall f v, In f fs -> In v (fvF f) -> P v) -> mk_poly esub eneg vars n fs = Some c -> shape c.
  Proof. intros H. unfold mk_poly. destruct (poly_ctrs esub eneg vars n fs) as [[|d l]|]; try discriminate; intros [= <-]; split; cbn [c_noint c_in]; auto. Qed.
  Lemma gen_shape f : (forall v, In v (fvF f) -> P v) -> forall c, gen esub eneg vars use_p n f = Some c -> shape c.
  Proof.
    induction f as [| |v|o a b|fs IH|fs IH|g IH|ws g IH] using formula_ind'; intros Hv c; cbn [gen]; try discriminate.
    - intros [= <-]. split; exact I.
    - destruct use_p; [|apply fwd_shape; auto]. apply poly_shape. intros f v [<-|[]]. apply Hv.
    - rewrite Forall_forall in IH.
      assert (Hs : forall g, In g fs -> forall v, In v (fvF g) -> P v) by (intros g Hg v Hvv; apply Hv; cbn [fvF]; apply in_flat_map; eauto).
      set (cs := fold_right _ _ fs). destruct cs as [l|] eqn:Ecs; cbn [IEval.bind]; [|discriminate].
      assert (G : Forall shape l).
      { subst cs. clear Hv. revert l Ecs. induction fs as [|g fs IHf]; intros l Ecs; cbn [fold_right] in Ecs; [injection Ecs as <-; constructor|].
        assert (IH' : forall x, In x fs -> (forall v, In v (fvF x) -> P v) -> forall c, gen esub eneg vars use_p n x = Some c -> shape c) by (intros x Hx; apply IH; right; auto).
        assert (Hs' : forall x, In x fs -> forall v, In v (fvF x) -> P v) by (intros x Hx; apply Hs; right; auto).
        destruct (use_p && is_rel g) eqn:Eg; [exact (IHf IH' Hs' _ Ecs)|].
        destruct (gen esub eneg vars use_p n g) as [cg|] eqn:Eg'; cbn [IEval.bind] in Ecs; [|discriminate].
        destruct (fold_right _ _ fs) as [l'|] eqn:El; cbn [IEval.bind] in Ecs; [|discriminate]. injection Ecs as <-.
        constructor; [exact (IH g (or_introl eq_refl) (Hs g (or_introl eq_refl)) _ Eg')|exact (IHf IH' Hs' _ eq_refl)]. }
      destruct use_p.
      + destruct (mk_poly esub eneg vars n (filter is_rel fs)) as [pc|] eqn:Ep; cbn [IEval.bind]; [|discriminate]. intros [= <-].
        apply shape_seq, c_flatten_Forall; [exact shape_seq|]. apply Forall_app. split; [exact G|]. constructor; [|constructor].
        apply (poly_shape _ _ ltac:(intros f v Hf; apply filter_In in Hf; exact (Hs f (proj1 Hf) v)) Ep).
      + intros [= <-]. apply shape_seq, c_flatten_Forall; [exact shape_seq|]. exact G.
    - rewrite Forall_forall in IH.
      assert (Hs : forall g, In g fs -> forall v, In v (fvF g) -> P v) by (intros g Hg v Hvv; apply Hv; cbn [fvF]; apply in_flat_map; eauto).
      set (cs := fold_right _ _ fs). destruct cs as [l|] eqn:Ecs; cbn [IEval.bind]; [|discriminate]. intros [= <-].
      apply shape_join. subst cs. clear Hv. revert l Ecs. induction fs as [|g fs IHf]; intros l Ecs; cbn [fold_right] in Ecs; [injection Ecs as <-; constructor|].
      assert (IH' : forall x, In x fs -> (forall v, In v (fvF x) -> P v) -> forall c, gen esub eneg vars use_p n x = Some c -> shape c) by (intros x Hx; apply IH; right; auto).
      assert (Hs' : forall x, In x fs -> forall v, In v (fvF x) -> P v) by (intros x Hx; apply Hs; right; auto).
      destruct (gen esub eneg vars use_p n g) as [cg|] eqn:Eg'; cbn [IEval.bind] in Ecs; [|discriminate].
      destruct (fold_right _ _ fs) as [l'|] eqn:El; cbn [IEval.bind] in Ecs; [|discriminate]. injection Ecs as <-.
      constructor; [exact (IH g (or_introl eq_refl) (Hs g (or_introl eq_refl)) _ Eg')|exact (IHf IH' Hs' _ eq_refl)].
  Qed.
  Lemma generate_shape fold f c : unfolded fold f -> (forall v, In v (fvF f) -> P v) -> generate esub eneg vars use_p fold n f = Some c -> shape c.
  Proof. intros U H. unfold generate, nnf_convert. apply gen_shape. apply (nnf_fv fold P true f U H). Qed.
End Gen.

(** ** Writing several dimensions *)
Lemma set_many (h : var -> ival) l : forall m, box_ok m -> incl l (bvars m) -> (forall v, In v l -> i_ok (h v)) ->
  let r := fold_left (fun m v => b_setv m v (h v)) l m in
  box_ok r /\ bvars r = bvars m /\ (b_full m -> (forall v, In v l -> i_empty (h v) = false) -> b_full r) /\
  forall v, In v (bvars m) -> (In v l -> b_getv r v = h v) /\ (~ In v l -> b_getv r v = b_getv m v).
Proof.
  induction l as [|w l IH]; intros m Km Hi Hk; cbn [fold_left]; cbv zeta.
  - split; [exact Km|]. split; [reflexivity|]. split; [auto|]. intros v Hv. split; [intros []|auto].
  - assert (Hw : In w (bvars m)) by (apply Hi; left; reflexivity).
    assert (K1 : box_ok (b_setv m w (h w))) by (apply setv_ok; auto; apply Hk; left; reflexivity).
    destruct (IH (b_setv m w (h w)) K1) as (A & B & C & E); [intros x Hx; apply Hi; right; exact Hx|intros v Hv; apply Hk; right; exact Hv|].
    split; [exact A|]. split; [exact B|]. split.
    + intros F Hn. apply C; [apply b_set_full; [exact F|apply Hn; left; reflexivity]|]. intros v Hv. apply Hn. right. exact Hv.
    + intros v Hv. destruct (E v Hv) as [E1 E2]. destruct (in_dec var_eq_dec v l) as [Hl|Hl].
      * split; [auto|]. intros N. exfalso. apply N. right. exact Hl.
      * rewrite (E2 Hl). split.
        -- intros [->|H]; [|contradiction]. apply getv_setv_eq; auto.
        -- intros N. apply getv_setv_ne; auto. intros ->. apply N. left. reflexivity.
Qed.
Lemma i_eqb_mem_r a b x : i_eqb a b = true -> imem x b -> imem x a.
Proof.
  destruct a as [|l u], b as [|l' u']; cbn [i_eqb imem]; try discriminate; auto. intros H. apply andb_true_iff in H. destruct H as [H1 H2].
  apply deq_true in H1. apply deq_true in H2. rewrite H1, H2. auto.
Qed.

Section Prune.
  Variables (M : interp) (D : pdom) (Orc : oracles) (term : list ival -> list ival -> bool) (pn : nat) (mid : dbl -> dbl -> dbl).
  Variables (qs vars : list var) (g : formula) (ctc : contractor).
  Notation f := (FForall qs g).
  Hypothesis Hm : mid_ok mid.
  Hypothesis Nd : NoDup (vars ++ qs).
  Hypothesis Cq : forall v, In v qs -> vty v = CONTINUOUS.
  Hypothesis Co : c_ok M D Orc (vars ++ qs) ctc.
  Hypothesis Sh : shape (vars ++ qs) (fun v => In v (fvF g)) ctc.
  Hypothesis Se : forall rho, solves M D g rho -> c_sem M D ctc rho.

  Lemma disj v : In v vars -> ~ In v qs.
  Proof. intros H1 H2. clear - Nd H1 H2. induction vars as [|u l IH]; [destruct H1|]. cbn [app] in Nd. inversion Nd; subst. destruct H1 as [->|H1]; [apply H3, in_or_app; right; exact H2|exact (IH H4 H1)]. Qed.
  Definition assign (rho : env) (h : var -> R) : env := fun v => if in_dec var_eq_dec v qs then h v else rho v.
  Lemma assign_solves rho h : solves M D f rho -> solves M D g (assign rho h).
  Proof.
    intros [H1 H2]. cbn [defF holds] in H1, H2.
    assert (A : agree_off qs rho (assign rho h)) by (intros v Hv; unfold assign; destruct (in_dec var_eq_dec v qs); [contradiction|reflexivity]).
    assert (B : forall v, In v qs -> typed_val (vty v) (assign rho h v)) by (intros v Hv; rewrite (Cq v Hv); exact Logic.I).
    split; [exact (H1 _ A B)|exact (H2 _ A B)].
  Qed.

  Lemma fc_with_ok b ce b' st : box_ok b -> b_full b -> bvars b = vars -> box_ok ce -> b_full ce -> bvars ce = vars ++ qs ->
    fc_with mid Orc term pn f ctc b ce = Some (b', st) -> bvars b' = bvars b /\ step_ok M D [f] b (bvals b') /\ (st = false -> b_full b').
  Proof.
    intros Kb Fb Vb Kc Fc Vc E. unfold fc_with in E. cbn [q_vars] in E.
    assert (I1 : incl (bvars b) (bvars ce)) by (rewrite Vb, Vc; apply incl_appl, incl_refl).
    destruct (set_many (b_getv b) (bvars b) ce Kc I1 (fun v _ => b_getv_ok b v Kb)) as (K1 & V1 & F1 & G1). fold (overwrite b ce) in K1, V1, F1, G1. set (m1 := overwrite b ce) in *.
    specialize (F1 Fc (fun v Hv => getv_full b v Kb Fb Hv)).
    assert (Mq : forall v, In v qs -> exists l u, b_getv ce v = IV l u /\ i_ok (IV l u) /\ is_finite (mid l u) = true).
    { intros v Hv. assert (Hc : In v (bvars ce)) by (rewrite Vc; apply in_or_app; right; exact Hv). pose proof (getv_full ce v Kc Fc Hc) as Ne. pose proof (b_getv_ok ce v Kc) as Ok.
      destruct (b_getv ce v) as [|l u]; [discriminate|]. exists l, u. split; [reflexivity|]. split; [exact Ok|]. apply (Hm l u Ok). }
    assert (I2 : incl qs (bvars m1)) by (rewrite V1, Vc; apply incl_appr, incl_refl).
    destruct (set_many (fun v => i_mid mid (b_getv ce v)) qs m1 K1 I2) as (K2 & V2 & F2 & G2).
    { intros v Hv. destruct (Mq v Hv) as (l & u & -> & _ & _). cbn [i_mid]. unfold i_point. apply mk_ival_ok. }
    cbv zeta in E. set (m2 := fold_left (fun m v => b_setv m v (i_mid mid (b_getv ce v))) qs m1) in *.
    assert (Pq : forall v, In v qs -> exists p, is_finite p = true /\ b_getv m2 v = i_point p).
    { intros v Hv. destruct (Mq v Hv) as (l & u & El & _ & Fl). exists (mid l u). split; [exact Fl|]. rewrite (proj1 (G2 v (I2 v Hv)) Hv), El. reflexivity. }
    specialize (F2 F1). assert (F2' : b_full m2).
    { apply F2. intros v Hv. destruct (Mq v Hv) as (l & u & El & _ & Fl). rewrite El. cbn [i_mid]. exact (imem_nonempty _ _ (i_point_mem _ Fl)). }
    assert (Gv : forall v, In v vars -> b_getv m2 v = b_getv b v).
    { intros v Hv. assert (Hv1 : In v (bvars m1)) by (rewrite V1, Vc; apply in_or_app; left; exact Hv). rewrite (proj2 (G2 v Hv1) (disj v Hv)).
      apply G1; [rewrite Vc; apply in_or_app; left; exact Hv|rewrite Vb; exact Hv]. }
    rewrite V1, Vc in V2. clearbody m2. clear F2 G2 I2 Mq F1 G1 K1 V1 m1 I1.
    destruct (prune Orc term pn ctc (cs_new m2 None)) as [s|] eqn:Ep; cbn [IEval.bind] in E; [|discriminate].
    pose proof (prune_fr M D Orc term (fun v => In v (fvF g)) (vars ++ qs) pn ctc (cs_new m2 None) s K2 F2' V2 Co (proj2 Sh) Ep) as X. cbn [cs_new cs_box] in X.
    assert (Co' : c_ok M D Orc (bvars (cs_box (cs_new m2 None))) ctc) by (cbn [cs_new cs_box]; rewrite V2; exact Co).
    pose proof (prune_keeps M D Orc term pn ctc (cs_new m2 None) s K2 Co' Ep) as Y. clear Co'. pose proof (k_sub _ _ _ Y) as Sb. cbn [cs_new cs_box] in Sb. clear Y.
    set (r := cs_box s) in *. destruct X as [Vr Kr Kp Ao].
    assert (Ix : forall i v, nth_error vars i = Some v -> nth_error (bvars m2) i = Some v).
    { intros i v Hi. rewrite V2, nth_error_app1; [exact Hi|]. apply nth_error_Some. congruence. }
    assert (Gi : forall i v, nth_error vars i = Some v -> b_get m2 i = b_get b i).
    { intros i v Hi. rewrite <- (getv_v m2 v i K2 (Ix i v Hi)), <- (getv_v b v i Kb) by (rewrite Vb; exact Hi). apply Gv. eapply nth_error_In; eauto. }
    assert (Pt : forall rho, in_box rho b -> solves M D f rho -> exists rho', in_box rho' r /\ forall v, In v vars -> rho' v = rho v).
    { intros rho Hb Hs. set (h := fun v => match b_getv m2 v with IV l _ => B2R l | IEmpty => 0%R end). exists (assign rho h). split.
      - apply Kp; [|apply sem0_sem; [apply Sh|]; apply Se, assign_solves, Hs]. split; [apply full_nonempty; auto|]. intros i v Hi. rewrite <- (getv_v m2 v i K2 Hi).
        pose proof (nth_error_In _ _ Hi) as Hv. rewrite V2 in Hv. unfold assign. destruct (in_dec var_eq_dec v qs) as [Hq|Hq].
        + unfold h. destruct (Pq v Hq) as (p & Fp & Ep'). pose proof (i_point_mem p Fp) as Pm. rewrite Ep'. pose proof (imem_nonempty _ _ Pm) as Pn. unfold i_point in *. apply mk_ival_nonempty in Pn. rewrite Pn in *. exact Pm.
        + apply in_app_or in Hv. destruct Hv as [Hv|Hv]; [|contradiction]. rewrite (Gv v Hv). apply b_getv_mem; auto. rewrite Vb. exact Hv.
      - intros v Hv. unfold assign. destruct (in_dec var_eq_dec v qs) as [Hq|Hq]; [exfalso; exact (disj v Hv Hq)|reflexivity]. }
    destruct (b_empty r) eqn:Er.
    { assert (Z : b' = b_set_empty b /\ st = true) by (split; congruence). destruct Z as [-> ->]. split; [reflexivity|]. split; [|discriminate]. cbn [b_set_empty bvals].
      pose proof (set_empty_all b) as Ae. unfold all_empty in Ae. cbn [b_set_empty bvals] in Ae. split; [apply map_length|]. split; [|split; [|split]].
      - rewrite Forall_forall in *. intros x Hx. rewrite (Ae x Hx). exact Logic.I.
      - intros i x Hx. exfalso. rewrite (map_nth (fun _ => IEmpty) (bvals b) IEmpty i) in Hx. exact Hx.
      - intros rho Hb Hs. exfalso. destruct (Pt rho Hb (Hs _ (or_introl eq_refl))) as (rho' & [H1 _] & _). congruence.
      - intros _. left. exact Ae. }
    assert (Fr : b_full r /\ forall i v, nth_error (bvars m2) i = Some v -> ~ In v (fvF g) -> b_get r i = b_get m2 i).
    { destruct Ao as [Ao|Ao]; [rewrite (all_empty_b r Kr Ao) in Er; discriminate|exact Ao]. }
    destruct Fr as [Fr Un]. set (iv := copy_dims (b_size b) (bvals b) (bvals r)) in *.
    assert (Z : b' = mkBox (bvars b) iv /\ st = negb (dims_differ (b_size b) (bvals b) (bvals r))) by (split; congruence). destruct Z as [-> _]. clear E.
    assert (Lv : length iv = length (bvals b)) by (unfold iv, copy_dims; rewrite map_length, seq_length; reflexivity).
    assert (Nv : forall i, nth i iv IEmpty = b_get b i \/ (i < length vars /\ nth i iv IEmpty = b_get r i)).
    { intros i. destruct (Nat.lt_ge_cases i (length (bvals b))) as [Hi|Hi].
      - unfold iv, copy_dims. erewrite nth_indep by (rewrite map_length, seq_length; exact Hi). rewrite (map_nth (fun i => if Nat.ltb i (b_size b) && negb (i_eqb (nth i (bvals b) IEmpty) (nth i (bvals r) IEmpty)) then nth i (bvals r) IEmpty else nth i (bvals b) IEmpty) (seq 0 (length (bvals b))) 0 i). rewrite seq_nth by exact Hi. cbn [plus].
        destruct (Nat.ltb i (b_size b)) eqn:El; cbn [andb]; [|left; reflexivity]. destruct (i_eqb _ _); cbn [negb]; [left; reflexivity|right]. apply Nat.ltb_lt in El. unfold b_size in El. rewrite Vb in El. split; [exact El|reflexivity].
      - left. unfold b_get. rewrite !nth_overflow by lia. reflexivity. }
    assert (Mv : forall i v x, nth_error vars i = Some v -> imem x (b_get r i) -> imem x (nth i iv IEmpty)).
    { intros i v x Hi Hx. assert (Li : i < length (bvals b)) by (eapply (box_ok_len b i v Kb); rewrite Vb; exact Hi).
      unfold iv, copy_dims. erewrite nth_indep by (rewrite map_length, seq_length; exact Li). rewrite (map_nth (fun i => if Nat.ltb i (b_size b) && negb (i_eqb (nth i (bvals b) IEmpty) (nth i (bvals r) IEmpty)) then nth i (bvals r) IEmpty else nth i (bvals b) IEmpty) (seq 0 (length (bvals b))) 0 i). rewrite seq_nth by exact Li. cbn [plus].
      destruct (Nat.ltb i (b_size b)) eqn:El; cbn [andb].
      - destruct (i_eqb (nth i (bvals b) IEmpty) (nth i (bvals r) IEmpty)) eqn:Ee; cbn [negb]; [|exact Hx]. exact (i_eqb_mem_r _ _ x Ee Hx).
      - exfalso. apply Nat.ltb_ge in El. unfold b_size in El. rewrite Vb in El. assert (i < length vars) by (apply nth_error_Some; congruence). lia. }
    assert (Full' : Forall (fun i => i_empty i = false) iv).
    { apply Forall_forall. intros x Hx. destruct (In_nth _ _ IEmpty Hx) as (i & Hi & <-). rewrite Lv in Hi. destruct (Nv i) as [->|[Hl ->]].
      - unfold b_full in Fb. rewrite Forall_forall in Fb. apply Fb. apply nth_In. exact Hi.
      - destruct (nth_error vars i) as [v|] eqn:Ev; [|apply nth_error_None in Ev; lia]. apply (full_get r i v Kr Fr). rewrite Vr. apply Ix. exact Ev. }
    split; [reflexivity|]. split; [|intros _; exact Full']. cbn [bvals]. split; [exact Lv|]. split; [|split; [|split]].
    - apply Forall_forall. intros x Hx. destruct (In_nth _ _ IEmpty Hx) as (i & Hi & <-). destruct (Nv i) as [->|[_ ->]]; apply box_ok_get; auto.
    - intros i x Hx. destruct (Nv i) as [Z|[Hl Z]]; rewrite Z in Hx; [exact Hx|]. destruct (nth_error vars i) as [v|] eqn:Ev; [|apply nth_error_None in Ev; lia].
      apply Sb in Hx. fold (b_get m2 i) in Hx. rewrite (Gi i v Ev) in Hx. exact Hx.
    - intros rho Hb Hs. destruct (Pt rho Hb (Hs _ (or_introl eq_refl))) as (rho' & Hr & Ag). split.
      + unfold b_empty. cbn [bvals]. destruct iv as [|i0 l0] eqn:Eiv; [destruct Kb as (_ & Lb & _); cbn [length] in Lv; lia|]. inversion Full'; assumption.
      + cbn [bvars]. rewrite Vb. intros i v Hi. apply (Mv i v _ Hi). rewrite <- (Ag v) by (eapply nth_error_In; eauto). apply (in_box_comp rho' r i v Hr). rewrite Vr. apply Ix. exact Hi.
    - intros _. right. split; [exact Full'|]. intros i v Hi Hn. rewrite Vb in Hi. destruct (Nv i) as [->|[_ ->]]; [reflexivity|]. rewrite (Un i v (Ix i v Hi)); [exact (Gi i v Hi)|].
      intros Hg. apply (Hn _ (or_introl eq_refl)). cbn [fvF]. apply filter_In. split; [exact Hg|]. apply negb_true_iff. destruct (mem_var v qs) eqn:Em; [|reflexivity]. apply mem_var_In in Em.
      exfalso. exact (disj v (nth_error_In _ _ Hi) Em).
  Qed.
End Prune.

Lemma step_ok_refl M D fs b : box_ok b -> step_ok M D fs b (bvals b).
Proof. intros K. split; [reflexivity|]. split; [apply K|]. split; [intros i x H; exact H|]. split; [intros rho H _; destruct b; exact H|]. intros F. right. split; [exact F|]. reflexivity. Qed.
Lemma step_ok_trans M D fs b b1 b2 : bvars b1 = bvars b -> bvars b2 = bvars b1 -> b_full b1 -> step_ok M D fs b (bvals b1) -> step_ok M D fs b1 (bvals b2) -> step_ok M D fs b (bvals b2).
Proof.
  intros V1 V2 F1 (A1 & B1 & C1 & E1 & G1) (A2 & B2 & C2 & E2 & G2). split; [congruence|]. split; [exact B2|]. split; [intros i x H; apply C1, C2, H|]. split.
  - intros rho H Hs. rewrite <- V1. apply E2; [|exact Hs]. specialize (E1 rho H Hs). rewrite <- V1 in E1. destruct b1. exact E1.
  - intros F. destruct (G1 F) as [X|[X Y]].
    + unfold b_full in F1. destruct (bvals b1) as [|i l]; [|exfalso; inversion X; inversion F1; subst; discriminate].
      left. destruct (bvals b2); [|discriminate A2]. constructor.
    + destruct (G2 F1) as [X2|[X2 Y2]]; [left; exact X2|right]. split; [exact X2|]. intros i v Hi Hn. rewrite (Y2 i v); [exact (Y i v Hi Hn)|congruence|exact Hn].
Qed.

Section Loop.
  Variables (M : interp) (D : pdom) (fold : expr -> expr -> option dbl) (K : eops) (pico : pico_t) (T : nat -> box -> list formula -> option tres).
  Variables (mid : dbl -> dbl -> dbl) (precision : dbl) (n : nat) (okA : formula -> Prop) (okV : var -> Prop).
  Hypothesis OKA : forall f, okA f.
  Hypothesis OKV_CONT : forall v, vty v = CONTINUOUS -> okV v.
  Hypothesis RC : rc_ok M.
  Hypothesis P_ok : pico_ok pico.
  Hypothesis T_ok : T_sound M D fold T False okA okV.
  Hypothesis T_bx : T_box fold False okA okV T.
  Hypothesis T_fu : T_full fold okA okV T.
  Hypothesis Hm : mid_ok mid.
  Hypothesis Fp : is_finite precision = true.
  Hypothesis Pp : (0 < B2R precision)%R.
  Variables (Orc : oracles) (term : list ival -> list ival -> bool) (pn : nat) (refine : box -> box).
  Variables (qs vars : list var) (g : formula) (ctc : contractor).
  Notation f := (FForall qs g).
  Hypothesis Nd : NoDup (vars ++ qs).
  Hypothesis Cq : forall v, In v qs -> vty v = CONTINUOUS.
  Hypothesis Co : c_ok M D Orc (vars ++ qs) ctc.
  Hypothesis Sh : shape (vars ++ qs) (fun v => In v (fvF g)) ctc.
  Hypothesis Se : forall rho, solves M D g rho -> c_sem M D ctc rho.
  Hypothesis Rf : refine_ok refine (vars ++ qs).
  Notation inner := (inner M D fold n okV).
  Notation loop := (fc_loop fold K pico T mid precision Orc term pn refine).

  Lemma fc_loop_ok fuel rounds : forall b c c' b', inner (vars ++ qs) c -> box_ok b -> b_full b -> bvars b = vars -> loop f ctc fuel rounds b c = Some (c', b') ->
    inner (vars ++ qs) c' /\ bvars b' = bvars b /\ step_ok M D [f] b (bvals b').
  Proof.
    induction rounds as [|r IH]; intros b c c' b' I Kb Fb Vb E; cbn [fc_loop] in E; [discriminate|].
    destruct (cx_run fold K pico T mid precision (inner_query b fuel) c) as [[c1 a1]|] eqn:E1; [|discriminate].
    destruct (query_run M D fold K pico T mid precision n okA okV OKA OKV_CONT P_ok T_ok T_bx T_fu Hm Fp Pp (vars ++ qs) b fuel c c1 a1 I Kb Fb ltac:(rewrite Vb; apply incl_appl, incl_refl) E1)
      as (I1 & ra & -> & Hr).
    destruct ra as [ce|].
    - destruct (Hr ce eq_refl) as (Vc & Kc & Fc). destruct (Rf ce Kc Fc Vc) as (Kc' & Fc' & Vc').
      destruct (fc_with mid Orc term pn f ctc b (refine ce)) as [[b1 st]|] eqn:Ew; cbn [IEval.bind fst snd] in E; [|discriminate].
      destruct (fc_with_ok M D Orc term pn mid qs vars g ctc Hm Nd Cq Co Sh Se b (refine ce) b1 st Kb Fb Vb Kc' Fc' Vc' Ew) as (V1 & S1 & F1).
      destruct st.
      + assert (X : c1 = c' /\ b1 = b') by (split; congruence). destruct X as [<- <-]. auto.
      + specialize (F1 eq_refl). assert (K1 : box_ok b1).
        { destruct S1 as (L1 & O1 & _). destruct Kb as (N1 & N2 & N3). split; [rewrite V1; exact N1|]. split; [rewrite L1, V1; exact N2|exact O1]. }
        destruct (IH b1 c1 c' b' I1 K1 F1 ltac:(congruence) E) as (I2 & V2 & S2). split; [exact I2|]. split; [congruence|]. exact (step_ok_trans M D [f] b b1 b' V1 V2 F1 S1 S2).
    - assert (X : c1 = c' /\ b = b') by (split; congruence). destruct X as [<- <-]. split; [exact I1|]. split; [reflexivity|]. apply step_ok_refl. exact Kb.
  Qed.
  Lemma fc_prunes_ok fuel rounds bs : (forall b, In b bs -> box_ok b /\ b_full b /\ bvars b = vars) -> forall c c' bs', inner (vars ++ qs) c ->
    fc_prunes fold K pico T mid precision Orc term pn refine f ctc fuel rounds bs c = Some (c', bs') ->
    inner (vars ++ qs) c' /\ Forall2 (fun b b' => bvars b' = bvars b /\ step_ok M D [f] b (bvals b')) bs bs'.
  Proof.
    induction bs as [|b bs IH]; intros Hb c c' bs' I E; cbn [fc_prunes] in E.
    - assert (X : c = c' /\ bs' = []) by (split; congruence). destruct X as [<- ->]. auto.
    - destruct (loop f ctc fuel rounds b c) as [[c1 b1]|] eqn:E1; cbn [IEval.bind fst snd] in E; [|discriminate].
      destruct (Hb b (or_introl eq_refl)) as (Kb & Fb & Vb). destruct (fc_loop_ok fuel rounds b c c1 b1 I Kb Fb Vb E1) as (I1 & V1 & S1).
      destruct (fc_prunes fold K pico T mid precision Orc term pn refine f ctc fuel rounds bs c1) as [[c2 bs2]|] eqn:E2; cbn [IEval.bind fst snd] in E; [|discriminate].
      assert (X : c2 = c' /\ bs' = b1 :: bs2) by (split; congruence). destruct X as [-> ->].
      destruct (IH (fun x Hx => Hb x (or_intror Hx)) c1 c' bs2 I1 E2) as [I2 F2]. split; [exact I2|]. constructor; auto.
  Qed.
End Loop.

(** ** Both, for the modelled solver *)
Lemma rels_imp (P Q : relop -> expr -> expr -> Prop) f : (forall o a b, P o a b -> Q o a b) -> rels_ok P f -> rels_ok Q f.
Proof.
  intros H. induction f as [| |v|o a b|fs IH|fs IH|g IH|vs g IH] using formula_ind'; intros R0; inversion R0; subst; constructor; auto; rewrite Forall_forall in IH; intros g Hg; apply IH; auto.
Qed.
Definition fc_conjuncts (g : formula) : list formula := match g with FAnd fs => fs | _ => [g] end.
Lemma fc_setup_ops fold fpow n k esub eneg m use_p qs g vars eps ops oc t : fc_setup fold fpow n k esub eneg m use_p (FForall qs g) vars eps = (Val (ops, oc), t) ->
  oc = generate esub eneg (vars ++ qs) use_p fold m g /\ exists gs, ops = map (fun v => ODeclare v true) (vars ++ qs) ++ map OAssert gs.
Proof.
  unfold fc_setup. cbn [q_vars q_body]. unfold ExprAlg.bind. destruct (DeltaStrengthen fpow n k (mk_not g) eps) as [[h| | |] t1]; cbn; try discriminate. intros E.
  assert (X : oc = generate esub eneg (vars ++ qs) use_p fold m g /\ ops = map (fun v => ODeclare v true) vars ++ map (fun v => ODeclare v true) qs ++ fc_asserts (nnf_convert fold h true)) by (split; congruence).
  destruct X as [-> ->]. split; [reflexivity|]. exists (fc_conjuncts (nnf_convert fold h true)). rewrite map_app, <- app_assoc. do 2 f_equal.
  destruct (nnf_convert fold h true); reflexivity.
Qed.

Section Top.
  Variables (M : interp) (D : pdom) (fold : expr -> expr -> option dbl).
  Variables (esub : expr -> expr -> expr) (eneg : expr -> expr) (m : nat) (A : iarith) (L : ibex) (fa : formula -> box -> option (list ival)) (term : list ival -> list ival -> bool) (pn : nat).
  Variables (mid : dbl -> dbl -> dbl) (precision : dbl) (wl : bool).
  Hypothesis RC : rc_ok M.
  Hypothesis Hm : mid_ok mid.
  Hypothesis HL : ibex_ok M D L.
  Hypothesis HN : eneg_faithful M D eneg.
  Hypothesis HS : sqrt_ok M D.
  Hypothesis HD : esub_ok M D esub.
  Variables (K : eops) (pico : pico_t) (T : nat -> box -> list formula -> option tres) (nx : nat).
  Hypothesis HP : pico_ok pico.
  Let okV (v : var) : Prop := wl = true -> is_int_type (vty v) = false.
  Let okA (_ : formula) : Prop := True.
  Hypothesis HT : T_sound M D fold T False okA okV.
  Hypothesis HB : T_box fold False okA okV T.
  Hypothesis HF : T_full fold okA okV T.
  Hypothesis Fp : is_finite precision = true.
  Hypothesis Pp : (0 < B2R precision)%R.
  Theorem fc_top refine fpow n k use_p qs g vars eps ops ctc t c0 b0 c1 bs fuel rounds bs' : NoDup (vars ++ qs) -> vars ++ qs <> [] -> (forall v, In v (vars ++ qs) -> vty v = CONTINUOUS) ->
    unfolded fold g -> consts_finite g -> (forall v, In v (fvF g) -> In v (vars ++ qs)) -> refine_ok refine (vars ++ qs) ->
    fc_setup fold fpow n k esub eneg m use_p (FForall qs g) vars eps = (Val (ops, Some ctc), t) ->
    cx_run fold K pico T mid precision ops (cx_init nx) = Some (c0, []) -> admissible M D fold K nx ops [] (p_empty, []) -> cx_box c0 = Some b0 -> b_full b0 ->
    (forall b, In b bs -> box_ok b /\ b_full b /\ bvars b = vars) ->
    fc_prunes fold K pico T mid precision (ibex_oracles L esub eneg m fa) term pn refine (FForall qs g) ctc fuel rounds bs c0 = Some (c1, bs') ->
    Forall2 (fun b b' => bvars b' = bvars b /\ step_ok M D [FForall qs g] b (bvals b')) bs bs'.
  Proof.
    intros Nd Ne Cn U Cf Fv Rf Es Er Ad Eb Fb Hb E. destruct (fc_setup_ops _ _ _ _ _ _ _ _ _ _ _ _ _ _ _ Es) as [Eg [gs ->]]. symmetry in Eg.
    assert (Re : rels_ok (fun _ a b => esub_faithful M D esub a b) g) by (apply (rels_imp (fun _ a b => finE a /\ finE b)); [intros _ a b [H1 H2]; apply HD; auto|exact Cf]).
    destruct (generate_good M D L esub eneg m fa HL HN HS use_p fold (vars ++ qs) g ctc U Re Fv Eg) as [Co Se].
    pose proof (generate_shape esub eneg m use_p (vars ++ qs) (vars ++ qs) (fun v => In v (fvF g)) fold g ctc U (fun v H => H) Eg) as Sh.
    pose proof (setup_inner M D fold K pico T mid precision nx okA okV (fun _ => Logic.I) (cont_okV wl) RC HP HT (vars ++ qs) gs c0 b0 Ne Nd Cn Er Ad Eb Fb) as I0.
    exact (proj2 (fc_prunes_ok M D fold K pico T mid precision nx okA okV (fun _ => Logic.I) (cont_okV wl) HP HT HB HF Hm Fp Pp (ibex_oracles L esub eneg m fa) term pn refine qs vars g ctc Nd
      (fun v Hv => Cn v (in_or_app _ _ _ (or_intror Hv))) Co Sh Se Rf fuel rounds bs Hb c0 c1 bs' I0 E)).
  Qed.
End Top.
(** What [fc_top] says about boxes *)
Lemma step_box M D f bs bs' : Forall2 (fun b b' => bvars b' = bvars b /\ step_ok M D [f] b (bvals b')) bs bs' ->
  Forall2 (fun b b' => box_sub b' b /\ forall rho, in_box rho b -> solves M D f rho -> in_box rho b') bs bs'.
Proof.
  induction 1 as [|b b' bs bs' [Ev (_ & _ & Hs & Hk & _)] F IH]; constructor; auto. split.
  - split; [exact Ev|]. intros i x. unfold b_get. apply Hs.
  - intros rho Hr Hf. destruct b' as [vs iv]. cbn [bvars bvals] in *. subst vs. apply Hk; [exact Hr|]. intros g [<-|[]]. exact Hf.
Qed.
