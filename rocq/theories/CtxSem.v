(** * What a reachable context knows about its problem (invariants behind C01) *)
From Coq Require Import ZArith Reals Lra Lia List Bool Arith Classical.
From Flocq Require Import IEEE754.BinarySingleNaN.
From Verif Require Import Dbl DblProofs Syntax Sem SemProofs FormulaCons FormulaConsProofs SpecForm Nnf NnfProofs PredAbs PredAbsProofs Tseitin TseitinProofs ConsUnfolded
  Scoped SpecScoped ScopedProofs Interval IntervalProofs MathConv IEval Contr Icp IcpTop Filter FilterProofs Theory TheoryTop IteElim SpecIte IteElimProofs
  Regular RegularProofs Wff WffProofs Sat Context CtxStruct SatSem CdclProofs SpecCtx CtxBox.
Import ListNotations.

Record glob := { g_news : list var; g_int : list var; g_pa : list (var * formula); g_nx : nat; g_mx : nat }.

Section Inv.
  Variables (M : interp) (D : pdom) (fold : expr -> expr -> option dbl) (K : eops) (n : nat) (qa : Prop).
  Notation hd := (holds M).

  Record gok (g : glob) : Prop := {
    go_pa : pa_ok fold {| pa_next := g_nx g; pa_map := g_pa g |};
    go_n : n <= g_nx g;
    go_news : forall v, In v (g_news g) -> n <= vid v < g_nx g;
    go_int : forall v, In v (g_int g) -> n <= vid v < g_nx g /\ ~ In v (g_news g);
    go_key : forall v a, In (v, a) (g_pa g) -> n <= vid v /\ ~ In v (g_news g) /\ ~ In v (g_int g);
    go_atom : forall v a w, In (v, a) (g_pa g) -> In w (fvF a) -> known n (g_news g) w \/ In w (g_int g) }.
  Record gext (g g' : glob) : Prop := {
    ge_news : incl (g_news g) (g_news g');
    ge_int : incl (g_int g) (g_int g');
    ge_pa : incl (g_pa g) (g_pa g');
    ge_nx : g_nx g <= g_nx g';
    ge_mx : g_mx g <= g_mx g';
    ge_key : forall v a, In (v, a) (g_pa g') -> In (v, a) (g_pa g) \/ g_nx g <= vid v;
    ge_nn : forall v, In v (g_news g') -> In v (g_news g) \/ g_nx g <= vid v }.
  Lemma gext_refl g : gext g g.
  Proof. split; auto using incl_refl. Qed.
  Lemma gext_trans a b c : gext a b -> gext b c -> gext a c.
  Proof.
    intros [A1 A2 A3 A4 A5 A6 A7] [B1 B2 B3 B4 B5 B6 B7]. split; eauto using incl_tran; try lia.
    - intros v f H. destruct (B6 v f H) as [H1|H1]; [exact (A6 v f H1)|right; lia].
    - intros v H. destruct (B7 v H) as [H1|H1]; [exact (A7 v H1)|right; lia].
  Qed.

  (** The truth value of a SAT variable: that of its atom, or its own. *)
  Definition tv (pa : list (var * formula)) (rho : env) (v : var) : Prop :=
    (exists a, In (v, a) pa /\ hd a rho) \/ ((forall a, ~ In (v, a) pa) /\ rho v = 1%R).
  Definition ltrue (P : var -> Prop) (sym : nat -> option var) (l : plit) : Prop := exists v, sym (fst l) = Some v /\ (P v <-> snd l = true).
  Definition ctrue (P : var -> Prop) (sym : nat -> option var) (L : pclause) : Prop := exists l, In l L /\ ltrue P sym l.

  Definition tvars (b : box) (w : var) : Prop := In w (bvars b) /\ vty w <> BOOLEAN.
  Definition isbool (w : var) : Prop := vty w = BOOLEAN.
  (** An atom the theory solver can be given on the box. *)
  Definition atom_ok (b : box) (a : formula) : Prop := wfF (tvars b) isbool (fun _ => qa) a /\ hasIteF a = false /\ unfolded fold a.

  (** Nothing asserted yet: the box is the product of the domains. *)
  Record pristine (lv : level) (p : problem) : Prop := {
    pr_stk : v_stack lv = [];
    pr_cls : l_cls (v_sat lv) = [];
    pr_sat : forall v, l_sat (v_sat lv) v = None;
    pr_emp : bvars (v_box lv) = [] -> b_empty (v_box lv) = false;
    pr_bv : forall v, In v (bvars (v_box lv)) -> declared p v;
    pr_dom : forall v d x, In (v, d) (p_doms p) -> d x -> exists i, nth_error (bvars (v_box lv)) i = Some v /\ imem x (b_get (v_box lv) i) }.

  Record linv (g : glob) (lv : level) (p : problem) : Prop := {
    li_box : box_ok (v_box lv);
    li_rng : int_range (v_box lv);
    li_ph : phantom (v_box lv);
    li_bv : forall v, In v (bvars (v_box lv)) -> declared p v \/ (In v (g_int g) /\ vty v = CONTINUOUS);
    li_dcl : forall v, declared p v -> known n (g_news g) v /\ In v (bvars (v_box lv));
    li_nd : NoDup (map fst (p_doms p));
    li_sat : forall v k, l_sat (v_sat lv) v = Some k -> 1 <= k <= g_mx g /\ l_sym (v_sat lv) k = Some v /\ vid v < g_nx g;
    li_sym : forall k v, l_sym (v_sat lv) k = Some v -> l_sat (v_sat lv) v = Some k;
    li_cls : forall L l, In L (l_cls (v_sat lv)) -> In l L -> exists v, l_sym (v_sat lv) (fst l) = Some v;
    li_var : forall v k, l_sat (v_sat lv) v = Some k -> (exists a, In (v, a) (g_pa g) /\ atom_ok (v_box lv) a) \/
       ((forall a, ~ In (v, a) (g_pa g)) /\ (l_tse (v_sat lv) v <> None \/ (In v (bvars (v_box lv)) /\ vty v = BOOLEAN)));
    li_stk : forall f v, In f (v_stack lv) -> In v (fvF f) -> vid v < g_nx g;
    li_pri : p_asserts p = [] -> pristine lv p;
    li_sem : forall rho0, solution M D p rho0 -> exists rho, agree_off (g_int g) rho0 rho /\ well_typed rho /\ in_box rho (v_box lv) /\
       (forall L, In L (l_cls (v_sat lv)) -> ctrue (tv (g_pa g) rho) (l_sym (v_sat lv)) L) /\
       (forall f, In f (v_stack lv) -> hd f rho) /\
       (forall v k a, l_sat (v_sat lv) v = Some k -> In (v, a) (g_pa g) -> regular M D a rho) }.

  Lemma tv_ext pa pa' rho v nx : incl pa pa' -> (forall v a, In (v, a) pa' -> In (v, a) pa \/ nx <= vid v) -> vid v < nx -> (tv pa' rho v <-> tv pa rho v).
  Proof.
    intros I Nw L. unfold tv. split; intros [(a & H1 & H2)|[H1 H2]].
    - left. exists a. split; [|exact H2]. destruct (Nw v a H1); [assumption|lia].
    - right. split; [intros a Ha; exact (H1 a (I _ Ha))|exact H2].
    - left. exists a. auto.
    - right. split; [|exact H2]. intros a Ha. destruct (Nw v a Ha) as [X|X]; [exact (H1 a X)|lia].
  Qed.
  Lemma ctrue_ext (P P' : var -> Prop) sym L : (forall l v, In l L -> sym (fst l) = Some v -> (P' v <-> P v)) -> ctrue P sym L -> ctrue P' sym L.
  Proof. intros H (l & Hl & v & E & X). exists l. split; [exact Hl|]. exists v. split; [exact E|]. rewrite (H l v Hl E). exact X. Qed.

  Lemma linv_mono g g' lv p : gext g g' -> linv g lv p -> linv g' lv p.
  Proof.
    intros [G1 G2 G3 G4 G5 G6 _] [B1 B2 B3 B4 B5 B6 S1 S2 S3 S4 S5 P1 Sm]. split; auto.
    - intros v H. destruct (B4 v H) as [|[H1 H2]]; auto.
    - intros v H. destruct (B5 v H) as [[H1|H1] H2]; split; auto; [left|right]; auto.
    - intros v k H. destruct (S1 v k H) as (H1 & H2 & H3). split; [lia|]. split; [exact H2|lia].
    - intros v k H. destruct (S4 v k H) as [(a & H1 & H2)|[H1 H2]]; [left; exists a; auto|right; split; [|exact H2]].
      intros a Ha. destruct (G6 v a Ha) as [X|X]; [exact (H1 a X)|]. destruct (S1 v k H) as (_ & _ & ?). lia.
    - intros f v H H'. pose proof (S5 f v H H'). lia.
    - intros rho0 H. destruct (Sm rho0 H) as (rho & A1 & A2 & A3 & A4 & A5 & A6). exists rho. split; [intros v Hv; apply A1; auto|].
      split; [exact A2|]. split; [exact A3|]. split; [|split; [exact A5|]].
      + intros L HL. apply (ctrue_ext (tv (g_pa g) rho)); [|exact (A4 L HL)]. intros l v Hl E. apply (tv_ext _ _ rho v (g_nx g) G3 G6).
        destruct (S1 v (fst l)) as (_ & _ & X); [apply S2; exact E|exact X].
      + intros v k a E Ha. destruct (G6 v a Ha) as [X|X]; [exact (A6 v k a E X)|]. destruct (S1 v k E) as (_ & _ & ?). lia.
  Qed.

  Lemma known_lt g v : gok g -> known n (g_news g) v -> vid v < g_nx g.
  Proof. intros G [H|H]; [pose proof (go_n g G); lia|]. apply (go_news g G) in H. lia. Qed.
  Lemma known_noint g v : gok g -> known n (g_news g) v -> ~ In v (g_int g).
  Proof. intros G [H|H] C; destruct (go_int g G v C) as [X Y]; [lia|exact (Y H)]. Qed.
  Lemma known_nokey g v a : gok g -> known n (g_news g) v -> ~ In (v, a) (g_pa g).
  Proof. intros G [H|H] C; destruct (go_key g G v a C) as (X & Y & Z); [lia|exact (Y H)]. Qed.
  Lemma int_nokey g v a : gok g -> In v (g_int g) -> ~ In (v, a) (g_pa g).
  Proof. intros G H C. destruct (go_key g G v a C) as (X & Y & Z). exact (Z H). Qed.
  Lemma bv_lt g lv p v : gok g -> linv g lv p -> In v (bvars (v_box lv)) -> vid v < g_nx g.
  Proof.
    intros G L H. destruct (li_bv _ _ _ L v H) as [X|[X _]]; [apply (known_lt g v G); apply (li_dcl _ _ _ L v X)|]. apply (go_int g G) in X. lia.
  Qed.

  (** ** Pristine levels *)
  Lemma pri_in lv p rho : box_ok (v_box lv) -> pristine lv p -> (forall v d, In (v, d) (p_doms p) -> d (rho v)) -> in_box rho (v_box lv).
  Proof.
    intros Kb [P1 P2 P3 P4 P5 P6] H.
    assert (C : forall i v, nth_error (bvars (v_box lv)) i = Some v -> imem (rho v) (b_get (v_box lv) i)).
    { intros i v Hi. destruct (proj1 (in_map_iff _ _ _) (P5 v (nth_error_In _ _ Hi))) as ((w & d) & E & Hd). cbn [fst] in E. subst w.
      destruct (P6 v d (rho v) Hd (H v d Hd)) as (j & Hj & Hm). replace i with j; [exact Hm|].
      destruct Kb as (Nd & _). rewrite NoDup_nth_error in Nd. apply Nd; [apply nth_error_Some; congruence|congruence]. }
    split; [|exact C]. rewrite b_empty_get. destruct (bvars (v_box lv)) as [|v l] eqn:E; [rewrite <- b_empty_get; auto|].
    exact (imem_nonempty _ _ (C 0%nat v eq_refl)).
  Qed.
  Lemma pri_sem (g : glob) lv p rho0 : box_ok (v_box lv) -> pristine lv p -> solution M D p rho0 -> exists rho, agree_off (g_int g) rho0 rho /\ well_typed rho /\ in_box rho (v_box lv) /\
       (forall L, In L (l_cls (v_sat lv)) -> ctrue (tv (g_pa g) rho) (l_sym (v_sat lv)) L) /\
       (forall f, In f (v_stack lv) -> hd f rho) /\
       (forall v k a, l_sat (v_sat lv) v = Some k -> In (v, a) (g_pa g) -> regular M D a rho).
  Proof.
    intros Kb Pr (W & Dm & _). exists rho0. split; [intros v _; reflexivity|]. split; [exact W|]. split; [exact (pri_in lv p rho0 Kb Pr Dm)|].
    destruct Pr as [P1 P2 P3 P4 P5 P6]. rewrite P1, P2. split; [intros L []|]. split; [intros f []|]. intros v k a E. rewrite P3 in E. discriminate.
  Qed.
  Lemma atom_mono b b' a : incl (bvars b) (bvars b') -> atom_ok b a -> atom_ok b' a.
  Proof. intros I [H1 H2]. split; [|exact H2]. revert H1. apply (wf_mono (tvars b) (tvars b') isbool isbool); auto. intros v [A B]. split; auto. Qed.

  (** ** Declaring *)
  Definition add_dom (v : var) (d : R -> Prop) (p : problem) : problem := {| p_doms := p_doms p ++ [(v, d)]; p_asserts := p_asserts p |}.
  Definition set_box (b : box) (lv : level) : level := {| v_box := b; v_stack := v_stack lv; v_sat := v_sat lv |}.
  Lemma declared_add v d p w : declared (add_dom v d p) w <-> declared p w \/ w = v.
  Proof. unfold declared, add_dom. cbn [p_doms]. rewrite map_app, in_app_iff. cbn [map fst In]. intuition auto. Qed.
  Lemma linv_add g lv p v (d : R -> Prop) b' : gok g -> known n (g_news g) v -> ~ declared p v -> linv g lv p ->
    let b := v_box lv in box_ok b' -> bvars b' = bvars b ++ [v] -> (forall j, j < length (bvars b) -> b_get b' j = b_get b j) -> int_range b' ->
    (forall x, (bvars b = [] -> b_empty b = false) -> d x -> imem x (b_get b' (length (bvars b)))) ->
    linv g (set_box b' lv) (add_dom v d p).
  Proof.
    intros G Kn Nd L b Kb Ev Eo Rb Hd.
    assert (In' : forall w, In w (bvars b') <-> In w (bvars b) \/ w = v) by (intros w; rewrite Ev, in_app_iff; cbn [In]; intuition auto).
    destruct L as [B1 B2 B3 B4 B5 B6 S1 S2 S3 S4 S5 P1 Sm]. fold b in B1, B2, B3, B4, B5, P1, Sm.
    split; cbn [set_box v_box v_stack v_sat]; auto.
    - apply phantom_nonnil. rewrite Ev. destruct (bvars b); discriminate.
    - intros w Hw. apply In' in Hw. rewrite declared_add. destruct Hw as [Hw| ->]; [destruct (B4 w Hw); auto|auto].
    - intros w Hw. apply declared_add in Hw. rewrite In'. destruct Hw as [Hw| ->]; [destruct (B5 w Hw); auto|auto].
    - unfold add_dom. cbn [p_doms]. rewrite map_app. cbn [map fst]. apply NoDup_rev in B6. rewrite <- (rev_involutive (map fst (p_doms p) ++ [v])). apply NoDup_rev.
      rewrite rev_app_distr. cbn [rev app]. constructor; auto. rewrite <- in_rev. exact Nd.
    - intros w k Hk. destruct (S4 w k Hk) as [(a & H1 & H2)|[H1 H2]]; [left; exists a; split; [exact H1|]|right; split; [exact H1|]].
      + apply (atom_mono b b'); auto. intros u Hu. apply In'. auto.
      + destruct H2 as [H2|[H2 H3]]; [left; exact H2|right; split; [apply In'; auto|exact H3]].
    - intros Hp. specialize (P1 Hp). destruct P1 as [Q1 Q2 Q3 Q4 Q5 Q6]. fold b in Q4, Q5, Q6. split; cbn [set_box v_box v_stack v_sat]; auto.
      + rewrite Ev. destruct (bvars b); discriminate.
      + intros w Hw. apply In' in Hw. apply declared_add. destruct Hw; auto.
      + intros w e x He Hx. unfold add_dom in He. cbn [p_doms] in He. apply in_app_or in He. rewrite Ev. destruct He as [He|[He|[]]].
        * destruct (Q6 w e x He Hx) as (i & Hi & Hm). assert (Li : i < length (bvars b)) by (apply nth_error_Some; congruence).
          exists i. rewrite nth_error_app1 by exact Li. split; [exact Hi|]. rewrite Eo by exact Li. exact Hm.
        * injection He as <- <-. exists (length (bvars b)). rewrite nth_error_app2, Nat.sub_diag by lia. split; [reflexivity|]. apply Hd; auto.
    - intros rho0 (W & Dm & As). destruct (Sm rho0) as (rho & A1 & A2 & A3 & A4).
      { split; [exact W|]. split; [|exact As]. intros w e He. apply Dm. unfold add_dom. cbn [p_doms]. apply in_or_app. left. exact He. }
      exists rho. split; [exact A1|]. split; [exact A2|]. split; [|exact A4].
      apply (in_box_app rho b b' v Ev Eo A3). apply Hd; [intros _; apply A3|]. rewrite (A1 v (known_noint g v G Kn)). apply Dm. unfold add_dom. cbn [p_doms]. apply in_or_app. right. left. reflexivity.
  Qed.

  Lemma set_box_id lv : set_box (v_box lv) lv = lv. Proof. destruct lv; reflexivity. Qed.
  Lemma undeclared_out g lv p v : gok g -> known n (g_news g) v -> ~ declared p v -> linv g lv p -> ~ In v (bvars (v_box lv)).
  Proof. intros G Kn Nd L H. destruct (li_bv _ _ _ L v H) as [X|[X _]]; [exact (Nd X)|exact (known_noint g v G Kn X)]. Qed.
  Lemma mem_declared v p : mem_var v (map fst (p_doms p)) = true <-> declared p v. Proof. apply mem_var_In. Qed.
  Lemma linv_declare g lv p v : gok g -> known n (g_news g) v -> linv g lv p -> linv g (set_box (b_add_new (v_box lv) v) lv) (declare v p).
  Proof.
    intros G Kn L. unfold declare. destruct (mem_var v (map fst (p_doms p))) eqn:E.
    - apply mem_declared in E. assert (H : b_add_new (v_box lv) v = v_box lv).
      { unfold b_add_new. rewrite (proj2 (has_In (v_box lv) v)); [reflexivity|]. apply (li_dcl _ _ _ L v E). }
      rewrite H, set_box_id. exact L.
    - assert (Nd : ~ declared p v) by (intros C; apply mem_declared in C; congruence).
      pose proof (undeclared_out g lv p v G Kn Nd L) as No. pose proof (li_box _ _ _ L) as Kb.
      assert (H : b_add_new (v_box lv) v = b_add (v_box lv) v).
      { unfold b_add_new. destruct (b_has (v_box lv) v) eqn:Eh; [apply has_In in Eh; contradiction|reflexivity]. }
      pose proof (add_new_range (v_box lv) v Kb (li_rng _ _ _ L)) as Rn. rewrite H in *.
      apply (linv_add g lv p v (dom0 (vty v)) (b_add (v_box lv) v) G Kn Nd L).
      + apply b_add_ok; auto.
      + reflexivity.
      + apply b_add_old. exact Kb.
      + exact Rn.
      + intros x Em Dx. exact (new_comp_mem (v_box lv) v Kb x (li_ph _ _ _ L) Em Dx).
  Qed.
  Lemma dom_range v l u : dom_ok v l u -> is_int_type (vty v) = true -> forall x, imem x (mk_ival l u) -> (Rabs x <= 9007199254740991)%R.
  Proof. intros (_ & _ & H) I x Hx. apply (H I). apply mk_ival_mem_imp. exact Hx. Qed.
  Lemma linv_declare_dom g lv p v l u : gok g -> known n (g_news g) v -> ~ declared p v -> dom_ok v l u -> linv g lv p ->
    linv g (set_box (b_setv (b_add_new (v_box lv) v) v (mk_ival l u)) lv) (set_domain v (between l u) (declare v p)).
  Proof.
    intros G Kn Nd Ok L. pose proof (undeclared_out g lv p v G Kn Nd L) as No. pose proof (li_box _ _ _ L) as Kb.
    assert (H : b_add_new (v_box lv) v = b_add (v_box lv) v).
    { unfold b_add_new. destruct (b_has (v_box lv) v) eqn:Eh; [apply has_In in Eh; contradiction|reflexivity]. }
    pose proof (add_new_range (v_box lv) v Kb (li_rng _ _ _ L)) as Rn. rewrite H in *.
    assert (E : set_domain v (between l u) (declare v p) = add_dom v (between l u) p).
    { unfold set_domain, declare, add_dom. destruct (mem_var v (map fst (p_doms p))) eqn:E; [apply mem_declared in E; contradiction|]. cbn [p_doms p_asserts].
      f_equal. rewrite map_app. cbn [map fst]. assert (Ev : var_eqb v v = true) by now apply var_eqb_eq. rewrite Ev. f_equal.
      rewrite <- (map_id (p_doms p)) at 2. apply map_ext_in. intros [w d] Hw. cbn [fst]. destruct (var_eqb v w) eqn:Ew; [|reflexivity]. exfalso. apply Nd.
      apply var_eqb_eq in Ew. subst w. exact (in_map fst _ _ Hw). }
    rewrite E. pose proof (b_add_ok (v_box lv) v Kb No) as Kb'.
    assert (Lt : (length (bvars (v_box lv)) < length (bvals (b_add (v_box lv) v)))%nat).
    { destruct Kb' as (_ & X & _). rewrite X. cbn [b_add bvars]. rewrite app_length. cbn [length]. lia. }
    apply (linv_add g lv p v (between l u) _ G Kn Nd L).
    - apply setv_ok; [exact Kb'|apply mk_ival_ok].
    - reflexivity.
    - intros j Hj. unfold b_setv. rewrite (b_add_index _ v No), b_get_set_ne by lia. apply b_add_old; auto.
    - apply setv_range; [exact Kb'|cbn [b_add bvars]; apply in_or_app; right; left; reflexivity|exact Rn|exact (dom_range v l u Ok)].
    - intros x _ Hx. unfold b_setv. rewrite (b_add_index _ v No), b_get_set_eq by exact Lt. destruct Ok as (O1 & O2 & _). apply (mk_ival_mem x l u O1 O2). exact Hx.
  Qed.
  Lemma declared_set v d p w : declared (set_domain v d p) w <-> declared p w.
  Proof.
    unfold declared, set_domain. cbn [p_doms]. rewrite map_map. rewrite (map_ext _ fst); [reflexivity|]. intros [u e]. cbn [fst].
    destruct (var_eqb v u) eqn:E; [apply var_eqb_eq in E; subst; reflexivity|reflexivity].
  Qed.
  Lemma linv_set g lv p v l u : gok g -> declared p v -> p_asserts p = [] -> dom_ok v l u -> linv g lv p ->
    linv g (set_box (b_setv (v_box lv) v (mk_ival l u)) lv) (set_domain v (between l u) p).
  Proof.
    intros G Dv As Ok L. destruct L as [B1 B2 B3 B4 B5 B6 S1 S2 S3 S4 S5 P1 Sm]. specialize (P1 As). destruct P1 as [Q1 Q2 Q3 Q4 Q5 Q6].
    set (b := v_box lv) in *. assert (Iv : In v (bvars b)) by (apply B5; exact Dv). pose proof (idx0_nth b v Iv) as Nv. pose proof (box_ok_len b _ v B1 Nv) as Lv.
    assert (Kb : box_ok (b_setv b v (mk_ival l u))) by (apply setv_ok; [exact B1|apply mk_ival_ok]).
    assert (Pr : pristine (set_box (b_setv b v (mk_ival l u)) lv) (set_domain v (between l u) p)).
    { split; cbn [set_box v_box v_stack v_sat]; auto; cbn [b_setv b_set bvars].
      - intros E. rewrite E in Iv. contradiction.
      - intros w Hw. apply declared_set. auto.
      - intros w d x Hd Hx. unfold set_domain in Hd. cbn [p_doms] in Hd. apply in_map_iff in Hd. destruct Hd as ((w' & d') & E & Hd). cbn [fst] in E.
        destruct (var_eqb v w') eqn:Ev.
        + apply var_eqb_eq in Ev. subst w'. injection E as <- <-. exists (b_idx0 b v). split; [exact Nv|]. unfold b_setv. rewrite b_get_set_eq by exact Lv.
          destruct Ok as (O1 & O2 & _). apply (mk_ival_mem x l u O1 O2). exact Hx.
        + injection E as <- <-. destruct (Q6 w' d' x Hd Hx) as (i & Hi & Hm). exists i. split; [exact Hi|]. unfold b_setv. rewrite b_get_set_ne; [exact Hm|].
          intros C. subst i. rewrite Nv in Hi. injection Hi as ->. assert (var_eqb w' w' = true) by now apply var_eqb_eq. congruence. }
    split; cbn [set_box v_box v_stack v_sat]; auto.
    - apply setv_range; auto. exact (dom_range v l u Ok).
    - apply phantom_nonnil. cbn [b_setv b_set bvars]. intros E. rewrite E in Iv. contradiction.
    - intros w Hw. cbn [b_setv b_set bvars] in Hw. rewrite declared_set. auto.
    - intros w Hw. rewrite declared_set in Hw. auto.
    - unfold set_domain. cbn [p_doms]. rewrite map_map. rewrite (map_ext _ fst); [exact B6|]. intros [w e]. cbn [fst].
      destruct (var_eqb v w) eqn:E; [apply var_eqb_eq in E; subst; reflexivity|reflexivity].
    - intros rho0 Sol. exact (pri_sem g (set_box (b_setv b v (mk_ival l u)) lv) (set_domain v (between l u) p) rho0 Kb Pr Sol).
  Qed.

  Lemma linv_narrow g lv p v l u : gok g -> declared p v -> p_asserts p <> [] -> (forall d x, In (v, d) (p_doms p) -> between l u x -> d x) -> dom_ok v l u -> linv g lv p ->
    linv g (set_box (b_setv (v_box lv) v (mk_ival l u)) lv) (set_domain v (between l u) p).
  Proof.
    intros G Dv As Nw Ok L. destruct L as [B1 B2 B3 B4 B5 B6 S1 S2 S3 S4 S5 P1 Sm].
    set (b := v_box lv) in *. assert (Iv : In v (bvars b)) by (apply B5; exact Dv). pose proof (idx0_nth b v Iv) as Nv. pose proof (box_ok_len b _ v B1 Nv) as Lv.
    assert (Kb : box_ok (b_setv b v (mk_ival l u))) by (apply setv_ok; [exact B1|apply mk_ival_ok]).
    split; cbn [set_box v_box v_stack v_sat]; auto.
    - apply setv_range; auto. exact (dom_range v l u Ok).
    - apply phantom_nonnil. cbn [b_setv b_set bvars]. intros E. rewrite E in Iv. contradiction.
    - intros w Hw. cbn [b_setv b_set bvars] in Hw. rewrite declared_set. auto.
    - intros w Hw. rewrite declared_set in Hw. auto.
    - unfold set_domain. cbn [p_doms]. rewrite map_map. rewrite (map_ext _ fst); [exact B6|]. intros [w e]. cbn [fst].
      destruct (var_eqb v w) eqn:E; [apply var_eqb_eq in E; subst; reflexivity|reflexivity].
    - intros C. exfalso. apply As. exact C.
    - intros rho0 (W0 & D0 & A0). assert (Ev : var_eqb v v = true) by now apply var_eqb_eq.
      assert (In0 : forall w d, In (w, d) (p_doms p) -> d (rho0 w)).
      { intros w d Hd. destruct (var_eqb v w) eqn:Ew.
        - apply var_eqb_eq in Ew. subst w. apply (Nw d _ Hd). apply (D0 v (between l u)). unfold set_domain. cbn [p_doms]. apply in_map_iff. exists (v, d). cbn [fst]. rewrite Ev. auto.
        - apply (D0 w d). unfold set_domain. cbn [p_doms]. apply in_map_iff. exists (w, d). cbn [fst]. rewrite Ew. auto. }
      assert (Hv : between l u (rho0 v)).
      { apply in_map_iff in Dv. destruct Dv as ((w & d) & E & Hd). cbn [fst] in E. subst w. apply (D0 v (between l u)). unfold set_domain. cbn [p_doms].
        apply in_map_iff. exists (v, d). cbn [fst]. rewrite Ev. auto. }
      destruct (Sm rho0 (conj W0 (conj In0 A0))) as (rho & X1 & X2 & X3 & X4 & X5 & X6).
      exists rho. split; [exact X1|]. split; [exact X2|]. split; [|split; [exact X4|split; [exact X5|exact X6]]].
      assert (Rv : rho v = rho0 v).
      { apply X1. intros C. destruct (proj1 (B5 v Dv)) as [Kn|Kn]; [pose proof (proj1 (go_int g G v C)); lia|apply (proj2 (go_int g G v C)); exact Kn]. }
      assert (Hm : imem (rho v) (mk_ival l u)) by (rewrite Rv; destruct Ok as (O1 & O2 & _); apply (mk_ival_mem _ l u O1 O2); exact Hv).
      split.
      + rewrite b_empty_get. unfold b_setv. destruct (Nat.eq_dec (b_idx0 b v) 0) as [Z|N].
        * rewrite Z in *. rewrite b_get_set_eq by exact Lv. apply (imem_nonempty _ _ Hm).
        * rewrite b_get_set_ne by auto. rewrite <- b_empty_get. exact (proj1 X3).
      + intros i w Hi. cbn [b_setv b_set bvars] in Hi. unfold b_setv. destruct (Nat.eq_dec (b_idx0 b v) i) as [<-|N].
        * rewrite Nv in Hi. injection Hi as <-. rewrite b_get_set_eq by exact Lv. exact Hm.
        * rewrite b_get_set_ne by auto. apply X3. exact Hi.
  Qed.
  Lemma linv_redomain g lv p v l u : gok g -> declared p v -> redomain_ok p v l u -> dom_ok v l u -> linv g lv p ->
    linv g (set_box (b_setv (v_box lv) v (mk_ival l u)) lv) (set_domain v (between l u) p).
  Proof.
    intros G Dv [E|Nw] Ok L; [exact (linv_set g lv p v l u G Dv E Ok L)|]. destruct (p_asserts p) as [|f fs] eqn:E; [exact (linv_set g lv p v l u G Dv E Ok L)|].
    apply linv_narrow; auto. rewrite E. discriminate.
  Qed.

  Lemma linv_declare_set g lv p v l u : gok g -> known n (g_news g) v -> (declared p v -> redomain_ok p v l u) -> dom_ok v l u -> linv g lv p ->
    linv g (set_box (b_setv (b_add_new (v_box lv) v) v (mk_ival l u)) lv) (set_domain v (between l u) (declare v p)).
  Proof.
    intros G Kn Rd Ok L. destruct (mem_var v (map fst (p_doms p))) eqn:E.
    - assert (Dv : declared p v) by (apply mem_declared; exact E).
      assert (X : b_add_new (v_box lv) v = v_box lv). { unfold b_add_new. assert (Y : b_has (v_box lv) v = true) by (apply has_In; apply (li_dcl _ _ _ L v Dv)). rewrite Y. reflexivity. }
      assert (Y : declare v p = p) by (unfold declare; rewrite E; reflexivity). rewrite X, Y. apply linv_redomain; auto.
    - apply linv_declare_dom; auto. intros C. apply mem_declared in C. congruence.
  Qed.

  (** ** Asserting: the box *)
  Lemma reg_gap f rho : regular M D f rho -> forall pol, gap_free_pol f pol rho.
  Proof.
    induction f as [| |v|o a b|fs IH|fs IH|f IH|vs f IH] using formula_ind'; intros H pol; unfold gap_free_pol; cbn [bound_lit]; auto.
    - intros St. assert (I : is_ineq o = true) by (unfold strict_lit in St; cbn [lit_kind] in St; destruct pol, o; cbn in St; try discriminate; reflexivity).
      destruct H as [_ H]. destruct (H I) as [H1 H2].
      destruct a; [| |intros _ cc Hcc; specialize (H1 cc Hcc); cbn [evalE] in H1; split; intros C; apply H1; [left|right]; exact C|..];
        (destruct b; try exact Logic.I; intros _ cc Hcc; specialize (H2 cc Hcc); cbn [evalE] in H2; split; intros C; apply H2; [left|right]; exact C).
    - intros St. apply (IH H (negb pol)). unfold strict_lit in *. exact St.
  Qed.
  Lemma sol_add f p rho : solution M D (add_assert f p) rho -> solution M D p rho /\ regular M D f rho /\ hd f rho.
  Proof.
    intros (W & Dm & As). split.
    - split; [exact W|]. split; [exact Dm|]. intros g Hg. apply As. cbn [add_assert p_asserts]. apply in_or_app. left. exact Hg.
    - apply As. cbn [add_assert p_asserts]. apply in_or_app. right. left. reflexivity.
  Qed.
  Definition over_declared (p : problem) (f : formula) : Prop := forall v, In v (fvF f) -> declared p v.
  Lemma agree_decl g lv p f rho rho' : gok g -> linv g lv p -> over_declared p f -> agree_off (g_int g) rho rho' -> forall v, In v (fvF f) -> rho v = rho' v.
  Proof. intros G L O A v Hv. symmetry. apply A. apply (known_noint g v G). apply (li_dcl _ _ _ L v). apply O, Hv. Qed.
  Lemma linv_assert_box g lv p f b' : gok g -> linv g lv p -> over_declared p f -> box_ok b' -> box_sub b' (v_box lv) -> phantom b' ->
    (forall rho, in_box rho (v_box lv) -> regular M D f rho -> hd f rho -> in_box rho b') ->
    linv g (set_box b' lv) (add_assert f p).
  Proof.
    intros G L O Kb Sb Ph Keep. pose proof L as L0. destruct L as [B1 B2 B3 B4 B5 B6 S1 S2 S3 S4 S5 P1 Sm].
    assert (Ev : bvars b' = bvars (v_box lv)) by apply Sb.
    split; cbn [set_box v_box v_stack v_sat]; auto.
    - exact (int_range_sub (v_box lv) b' Sb B2).
    - intros v Hv. rewrite Ev in Hv. exact (B4 v Hv).
    - intros v Hv. rewrite Ev. exact (B5 v Hv).
    - intros v k Hk. rewrite Ev. destruct (S4 v k Hk) as [(a & H1 & H2)|H]; [left; exists a; split; [exact H1|]|right; exact H].
      apply (atom_mono (v_box lv) b'); [rewrite Ev; apply incl_refl|exact H2].
    - intros E. cbn [add_assert p_asserts] in E. destruct (p_asserts p); discriminate.
    - intros rho0 Sol. apply sol_add in Sol. destruct Sol as (Sol & Rf & Hf). destruct (Sm rho0 Sol) as (rho & A1 & A2 & A3 & A4). exists rho.
      split; [exact A1|]. split; [exact A2|]. split; [|exact A4]. pose proof (agree_decl g lv p f rho0 rho G L0 O A1) as Ag.
      apply Keep; [exact A3|apply (proj2 (reg_agree M D off_gaps) f rho0 rho Ag Rf)|apply (holds_agree M f rho0 rho Ag); exact Hf].
  Qed.
  Lemma filter_phantom f b r b' : rc_ok M -> box_ok b -> (forall v, In v (fvF f) -> In v (bvars b)) -> finF f -> filter_assertion f b = Some (r, b') -> phantom b -> phantom b'.
  Proof.
    intros RC Kb Hv Hf E P. destruct (filt_spec M b RC Kb f true r b' Hv Hf E) as [[_ ->]|(v & i & Q & _ & Hi & Hn & _)]; [exact P|].
    destruct (narrowed_ok Q i b b' Kb Hn) as [_ V]. apply phantom_nonnil. rewrite V. intros C. rewrite C in Hi. destruct i; discriminate.
  Qed.

  (** ** Asserting: conversion to clauses *)
  Lemma closed_both (P Q : formula -> Prop) : closedP P -> closedP Q -> closedP (fun a => P a /\ Q a).
  Proof.
    intros C E. split.
    - split; [apply (cT _ C)|apply (cT _ E)].
    - split; [apply (cF _ C)|apply (cF _ E)].
    - intros gs. rewrite (cA _ C), (cA _ E). split; [intros [H1 H2] x Hx; split; auto|intros H; split; intros x Hx; apply (H x Hx)].
    - intros gs. rewrite (cO _ C), (cO _ E). split; [intros [H1 H2] x Hx; split; auto|intros H; split; intros x Hx; apply (H x Hx)].
    - intros h. rewrite (cN _ C), (cN _ E). reflexivity.
  Qed.
  Lemma aclosed_atom b : aclosed fold (atom_ok b).
  Proof.
    split.
    - exact (closed_both _ _ (closed_wf (tvars b) isbool (fun _ => qa)) (closed_both _ _ closed_ite (closed_unf fold))).
    - intros v. split; [intros [H _]; exact H|]. intros H. split; [exact H|]. split; [reflexivity|constructor].
    - intros o a c (H1 & H2 & H3). split; [exact H1|]. split; [exact H2|]. inversion H3; subst. constructor. assumption.
    - intros vs g (H1 & H2 & H3) c Hc. pose proof (forall_clauses_wf fold _ _ _ vs g H1 c Hc) as Wc. split; [exact Wc|].
      inversion H3; subst. split; [|apply (fclauses_unf fold vs g); assumption].
      destruct H1 as [_ H1]. destruct (forall_clause_cases fold vs g c Hc) as (x & Hx & [[-> _]|[-> _]]); exact (body_ite _ x (body_clauses fold _ g H1 x Hx)).
  Qed.
  Lemma aclosed_reg b rho : well_typed rho -> aclosed fold (fun a => atom_ok b a /\ regular M D a rho).
  Proof.
    intros Wt. pose proof (aclosed_atom b) as [C Cv Cr Ca]. split.
    - exact (closed_both _ _ C (closed_reg M D off_gaps rho)).
    - intros v. rewrite Cv. split; [intros [H _]; exact H|intros H; split; [exact H|exact I]].
    - intros o a c [H1 [H2 H3]]. split; [apply Cr; exact H1|]. split; [exact H2|]. apply off_gaps_neg. exact H3.
    - intros vs g [H1 H2] c Hc. split; [exact (Ca vs g H1 c Hc)|]. apply (forall_clauses_reg fold M D off_gaps vs g rho); [intros v _; apply Wt|exact H2|exact Hc].
  Qed.
  Lemma tse_fold_in (l : list (var * formula)) : forall t v, (In v (map fst l) \/ rd var_eqb t v <> None) ->
    rd var_eqb (fold_left (fun m p => ss_insert var_eqb (fst p) tt m) l t) v <> None.
  Proof.
    induction l as [|[w a] l IH]; intros t v H; cbn [fold_left map fst In] in *; [destruct H as [[]|H]; exact H|].
    apply IH. rewrite (rd_sinsert var_eqb var_eqb_spec'). destruct H as [[->|H]|H]; [right|left; exact H|right].
    - destruct (var_eqb_spec' v v); [|congruence]. destruct (rd var_eqb t v); discriminate.
    - destruct (var_eqb_spec' v w) as [->|]; [destruct (rd var_eqb t w); discriminate|exact H].
  Qed.
  Lemma linv_sat_inv g lv p st : linv g lv p -> slv st = v_sat lv -> ss_max st = g_mx g -> sat_inv st.
  Proof.
    intros L E Em. split.
    - intros v k H. destruct (li_sat _ _ _ L v k) as (H1 & H2 & _); [rewrite <- E; exact H|]. rewrite Em. split; [exact H1|]. rewrite <- E in H2. exact H2.
    - intros k v H. pose proof (li_sym _ _ _ L k v) as X. rewrite <- E in X. exact (X H).
    - intros L0 l H1 H2. pose proof (li_cls _ _ _ L L0 l) as X. rewrite <- E in X. exact (X H1 H2).
  Qed.
  Lemma tv_below pa rho rho' v nx : (forall w, vid w < nx -> rho' w = rho w) -> vid v < nx -> (forall a w, In (v, a) pa -> In w (fvF a) -> vid w < nx) ->
    (tv pa rho' v <-> tv pa rho v).
  Proof.
    intros B L F. assert (H : forall a, In (v, a) pa -> (hd a rho' <-> hd a rho)) by (intros a Ha; apply holds_agree; intros w Hw; apply B, (F a w Ha Hw)).
    unfold tv. rewrite (B v L). split; (intros [(a & H1 & H2)|H0]; [left; exists a; split; [exact H1|apply (H a H1); exact H2]|right; exact H0]).
  Qed.

  Section AssertFull.
    Variables (g : glob) (lv : level) (p : problem) (f gg : formula) (s : it_state) (st st' : satst) (nx' : nat) (b2 : box).
    Hypothesis G : gok g.
    Hypothesis L : linv g lv (add_assert f p).
    Hypothesis Wf : wfF (fun v => declared p v /\ vty v <> BOOLEAN) (fun v => declared p v /\ vty v = BOOLEAN) (fun v => qa /\ known n (g_news g) v) f.
    Hypothesis Ie : ite_exact M D fold K f.
    Hypothesis Ep : ite_process fold K f (g_nx g) = (gg, s).
    Hypothesis Eb : b2 = fold_left b_add_new (it_vars s) (v_box lv).
    Hypothesis Es : sat_add_formula fold gg (it_next s) st = Some (st', nx').
    Hypothesis Est : slv st = v_sat lv.
    Hypothesis Epa : ss_pa st = g_pa g.
    Hypothesis Emx : ss_max st = g_mx g.

    Lemma af_decl v : In v (avF f) -> declared p v \/ known n (g_news g) v.
    Proof. intros H. destruct (proj2 (wf_av _ _ _) f Wf v H) as [X|[X|X]]; [left; apply X|left; apply X|right; apply X]. Qed.
    Lemma fv_decl v : In v (fvF f) -> declared p v.
    Proof. intros H. destruct (proj2 (wf_fv _ _ _) f Wf v H) as [X|X]; apply X. Qed.
    Lemma af_bnd : bnd (g_nx g) (avF f).
    Proof. intros v H. apply (known_lt g v G). destruct (af_decl v H) as [X|X]; [apply (li_dcl _ _ _ L v); exact X|exact X]. Qed.
    Lemma nodes_ok : (forall x, In x (it_nodes s) -> node_exact M D K x /\ node_fin K x) /\ (forall a b, In (a, b) (it_cmps s) -> cmp_exact M fold a b).
    Proof. pose proof (Ie (g_nx g)) as H. rewrite Ep in H. exact H. Qed.
    Lemma pr_all : g_nx g <= it_next s /\ bnd (it_next s) (fvF gg) /\ hasIteF gg = false /\ unfolded fold gg /\
      (forall v, In v (it_vars s) -> vty v = CONTINUOUS /\ g_nx g <= vid v < it_next s) /\
      (forall rho, hd f rho <-> exists rho', agree_off (it_vars s) rho rho' /\ hd gg rho') /\
      (forall rho, qplainF f -> regular M D f rho -> hd f rho -> exists rho', agree_off (it_vars s) rho rho' /\ regular M D gg rho' /\ hd gg rho').
    Proof.
      destruct nodes_ok as [N1 N2].
      exact (process_reg M D fold K off_gaps off_gaps_eq off_gaps_sub f (g_nx g) gg s Ep af_bnd (fun x H => proj1 (N1 x H)) N2).
    Qed.
    Lemma b2_all : box_ok b2 /\ (forall w, In w (bvars b2) <-> In w (bvars (v_box lv)) \/ In w (it_vars s)) /\ int_range b2 /\ phantom b2 /\
      (forall rho, in_box rho (v_box lv) -> in_box rho b2).
    Proof.
      destruct pr_all as (_ & _ & _ & _ & X & _). destruct (add_news (it_vars s) (v_box lv) (li_box _ _ _ L) (fun v H => proj1 (X v H))) as (A1 & A2 & A3 & A4 & A5).
      rewrite <- Eb in *. split; [exact A1|]. split; [exact A2|]. split; [exact (A3 (li_rng _ _ _ L))|]. split; [exact (A4 (li_ph _ _ _ L))|].
      intros rho. apply A5. exact (li_ph _ _ _ L).
    Qed.
    Lemma gg_wf : wfF (tvars b2) (fun v => In v (bvars b2) /\ vty v = BOOLEAN) (fun _ => qa) gg.
    Proof.
      destruct b2_all as (_ & Iv & _). destruct pr_all as (_ & _ & _ & _ & X & _).
      apply (process_wf _ _ _ fold K f (g_nx g) gg s Ep).
      - revert Wf. apply wf_mono; intros v [H1 H2]; [| |exact H1]; (split; [apply Iv; left; apply (li_dcl _ _ _ L v); exact H1|exact H2]).
      - intros v H. split; [apply Iv; right; exact H|]. rewrite (proj1 (X v H)). discriminate.
      - intros x H. apply (proj1 nodes_ok x H).
    Qed.
    Lemma gg_atom : atom_ok b2 gg.
    Proof.
      destruct pr_all as (_ & _ & H1 & H2 & _). split; [|split; assumption]. pose proof gg_wf as H. revert H. apply wf_mono; auto. intros v [_ H]. exact H.
    Qed.
    Lemma gg_fv v : In v (fvF gg) -> In v (bvars b2).
    Proof. intros H. destruct (proj2 (wf_fv _ _ _) gg gg_wf v H) as [X|X]; apply X. Qed.

    (** The intermediate results. *)
    Lemma conv : exists cs t gs q, ts_convert fold gg (it_next s) = (Some cs, t) /\
      smap (pa_visit fold) cs {| pa_next := ts_next t; pa_map := g_pa g |} = (gs, q) /\
      sat_add_clauses gs (with_pa (pa_map q) (with_tse (fold_left (fun m p => ss_insert var_eqb (fst p) tt m) (ts_map t) (ss_tse st)) st)) = Some st' /\ nx' = pa_next q.
    Proof.
      pose proof Es as E. unfold sat_add_formula in E. destruct (ts_convert fold gg (it_next s)) as [[cs|] t]; cbn [bind] in E; [|discriminate].
      cbn [with_tse ss_pa] in E. rewrite Epa in E. fold (pa_convert fold) in E.
      destruct (smap (pa_convert fold) cs {| pa_next := ts_next t; pa_map := g_pa g |}) as [gs q] eqn:E1.
      destruct (sat_add_clauses gs _) as [s2|] eqn:E2; cbn [bind] in E; [|discriminate]. injection E as <- <-.
      exists cs, t, gs, q. split; [reflexivity|]. split; [exact E1|]. split; [exact E2|reflexivity].
    Qed.

    Definition g_after (t : ts_state) : glob :=
      {| g_news := g_news g; g_int := it_vars s ++ map fst (ts_map t) ++ g_int g; g_pa := ss_pa st'; g_nx := nx'; g_mx := ss_max st' |}.
    Definition lv_after : level := {| v_box := b2; v_stack := v_stack lv ++ [gg]; v_sat := slv st' |}.
    Lemma bv_known v : In v (bvars (v_box lv)) -> known n (g_news g) v \/ In v (g_int g).
    Proof.
      intros H. destruct (li_bv _ _ _ L v H) as [X|[X _]]; [left; apply (li_dcl _ _ _ L v X)|right; exact X].
    Qed.
    Lemma pa_ok_next nx m k : pa_ok fold {| pa_next := nx; pa_map := m |} -> nx <= k -> pa_ok fold {| pa_next := k; pa_map := m |}.
    Proof. intros [A1 A2 A3 A4 A5] H. split; cbn [pa_next pa_map] in *; auto. intros b h Hb. pose proof (A2 b h Hb). lia. Qed.

    Lemma linv_assert_full : exists g', gok g' /\ gext g g' /\ linv g' lv_after (add_assert f p) /\ g_news g' = g_news g /\ g_pa g' = ss_pa st' /\ g_nx g' = nx' /\ g_mx g' = ss_max st'.
    Proof.
      destruct conv as (cs & t & gs & q & Et & Eq & Ec & En). destruct pr_all as (N1 & Bg & Hi & Un & Iv & _ & Keep).
      destruct b2_all as (Kb2 & Bv2 & Rg2 & Ph2 & In2).
      destruct (ts_convert_fresh M fold gg (it_next s) (Some cs) t Un Bg Et) as (_ & N2 & Tk).
      pose proof (ts_convert_fv M fold gg (it_next s) cs t Un Bg Et) as Cfv.
      pose proof (ts_convert_P fold (atom_ok b2) (aclosed_atom b2) gg (it_next s) cs t Et gg_atom) as Cat.
      set (q0 := {| pa_next := ts_next t; pa_map := g_pa g |}) in *.
      assert (K0 : pa_ok fold q0) by (apply (pa_ok_next (g_nx g)); [exact (go_pa g G)|lia]).
      assert (CU : forall c, In c cs -> unfolded fold c) by (intros c Hc; apply (Cat c Hc)).
      assert (XI : forall c, In c cs -> unfolded fold c /\ fvin (fun v => known n (g_news g) v \/ In v (it_vars s ++ map fst (ts_map t) ++ g_int g)) c).
      { intros c Hc. split; [exact (CU c Hc)|]. intros v Hv. destruct (Cfv c Hc v Hv) as [H|H].
        - apply gg_fv in H. apply Bv2 in H. destruct H as [H|H]; [destruct (bv_known v H) as [H1|H1]; [left; exact H1|]|]; right; apply in_or_app; [right; apply in_or_app; right; exact H1|left; exact H].
        - right. apply in_or_app. right. apply in_or_app. left. exact H. }
      pose proof (pa_all_fv fold _ cs q0 gs q XI) as Pfv.
      destruct (pa_convert_all_spec M fold cs q0 gs q CU K0 Eq) as (Kq & [Lq Iq] & Post). cbn [q0 pa_next pa_map] in Lq, Iq.
      pose proof (pa_all_newids M fold cs q0 gs q CU K0 Eq) as Nid. cbn [q0 pa_next pa_map] in Nid.
      set (st0 := with_pa (pa_map q) (with_tse (fold_left (fun m p => ss_insert var_eqb (fst p) tt m) (ts_map t) (ss_tse st)) st)) in *.
      assert (I0 : sat_inv st0) by (destruct (linv_sat_inv g lv (add_assert f p) st L Est Emx) as [J1 J2 J3]; split; assumption).
      destruct (add_clauses_spec M gs st0 st' I0 Ec) as (I1 & [X1 X2 X3] & P1 & T1 & D1 & Sm1). change (ss_pa st0) with (pa_map q) in P1.
      change (ss_max st0) with (ss_max st) in X3. rewrite Emx in X3.
      set (g' := g_after t).
      assert (Hold : forall v a, In (v, a) (g_pa g) -> vid v < g_nx g) by (intros v a Ha; exact (pk_lt fold _ (go_pa g G) v a Ha)).
      assert (Hint : forall v, In v (g_int g') -> n <= vid v < nx' /\ ~ In v (g_news g) /\ (g_nx g <= vid v < ts_next t \/ In v (g_int g))).
      { intros v H. cbn [g' g_after g_int] in H. pose proof (go_n g G). apply in_app_or in H. destruct H as [H|H]; [|apply in_app_or in H; destruct H as [H|H]].
        - apply Iv in H. split; [lia|]. split; [|left; lia]. intros C. apply (go_news g G) in C. lia.
        - apply Tk in H. split; [lia|]. split; [|left; lia]. intros C. apply (go_news g G) in C. lia.
        - destruct (go_int g G v H). split; [lia|]. split; [assumption|right; assumption]. }
      assert (Gk : gok g').
      { split; cbn [g' g_after g_news g_pa g_nx g_mx]; try (fold g').
        - rewrite P1, En. replace {| pa_next := pa_next q; pa_map := pa_map q |} with q by (destruct q; reflexivity). exact Kq.
        - pose proof (go_n g G). lia.
        - intros v H. apply (go_news g G) in H. lia.
        - intros v H. destruct (Hint v H) as (H1 & H2 & _). split; assumption.
        - intros v a H. rewrite P1 in H. destruct (Nid v a H) as [H1|H1].
          + destruct (go_key g G v a H1) as (A1 & A2 & A3). split; [exact A1|]. split; [exact A2|]. intros C. destruct (Hint v C) as (_ & _ & [H2|H2]); [pose proof (Hold v a H1); lia|exact (A3 H2)].
          + pose proof (go_n g G). split; [lia|]. split; [intros C; apply (go_news g G) in C; lia|]. intros C. destruct (Hint v C) as (_ & _ & [H2|H2]); [lia|]. apply (go_int g G) in H2. lia.
        - intros v a w H. rewrite P1 in H. apply (Pfv) with (b := v) (a := a); [|exact Eq|exact H].
          intros b a' Hb w' Hw. destruct (go_atom g G b a' w' Hb Hw) as [H1|H1]; [left; exact H1|right; apply in_or_app; right; apply in_or_app; right; exact H1]. }
      assert (Ge : gext g g').
      { split; cbn [g' g_after g_news g_pa g_nx g_mx g_int]; [apply incl_refl| | |lia|lia| |auto].
        - intros v H. apply in_or_app. right. apply in_or_app. right. exact H.
        - rewrite P1. exact Iq.
        - intros v a H. rewrite P1 in H. destruct (Nid v a H); [left; assumption|right; lia]. }
      exists g'. split; [exact Gk|]. split; [exact Ge|]. split; [|repeat split].
      assert (Bi : incl (bvars (v_box lv)) (bvars b2)) by (intros v H; apply Bv2; left; exact H).
      assert (Hnk : forall c v a, In c cs -> In v (fvF c) -> ~ In (v, a) (pa_map q)).
      { intros c v a Hc Hv H. destruct (proj2 (XI c Hc) v Hv) as [H1|H1]; rewrite <- P1 in H.
        - exact (known_nokey g' v a Gk H1 H).
        - exact (int_nokey g' v a Gk H1 H). }
      set (X := fun v => In v (bvars b2) \/ In v (map fst (ts_map t))).
      assert (CX : forall c, In c cs -> forall v, In v (fvF c) -> X v) by (intros c Hc v Hv; destruct (Cfv c Hc v Hv) as [H|H]; [left; apply gg_fv; exact H|right; exact H]).
      assert (XK : forall v a, X v -> ~ In (v, a) (pa_map q)).
      { intros v a Hx H. rewrite <- P1 in H. destruct Hx as [Hx|Hx].
        - apply Bv2 in Hx. destruct Hx as [Hx|Hx].
          + destruct (bv_known v Hx) as [H1|H1]; [exact (known_nokey g' v a Gk H1 H)|]. apply (int_nokey g' v a Gk); [|exact H]. apply (ge_int _ _ Ge). exact H1.
          + apply (int_nokey g' v a Gk); [|exact H]. apply in_or_app. left. exact Hx.
        - apply (int_nokey g' v a Gk); [|exact H]. apply in_or_app. right. apply in_or_app. left. exact Hx. }
      assert (New : forall v k, sat_of st' v = Some k -> l_sat (v_sat lv) v = Some k \/ exists c, In c gs /\ In v (fvF c)).
      { intros v k H. destruct (D1 v k H) as [H1|H1]; [left; rewrite <- Est; exact H1|right; exact H1]. }
      assert (PV : forall (P : formula -> Prop), aclosed fold P -> (forall c, In c cs -> P c) -> forall c v, In c gs -> In v (fvF c) -> paV P X q v).
      { intros P A Hp c v Hc Hv. destruct (pa_all_V fold P A M X cs q0 gs q) as (_ & _ & V); [|exact K0|exact Eq|exact (V c Hc v Hv)].
        intros c' Hc'. split; [exact (CU c' Hc')|]. split; [exact (Hp c' Hc')|exact (CX c' Hc')]. }
      assert (TseOld : forall v, l_tse (v_sat lv) v <> None -> l_tse (slv st') v <> None).
      { intros v H. rewrite <- Est in H. cbn [slv l_tse] in H |- *. rewrite T1. apply (tse_fold_in (ts_map t) (ss_tse st) v). right. exact H. }
      assert (TseNew : forall v, In v (map fst (ts_map t)) -> l_tse (slv st') v <> None).
      { intros v H. cbn [slv l_tse]. rewrite T1. apply (tse_fold_in (ts_map t) (ss_tse st) v). left. exact H. }
      assert (Xlt : forall v, X v -> vid v < nx').
      { intros v [H|H]; [|apply Tk in H; lia]. apply Bv2 in H. destruct H as [H|H]; [pose proof (bv_lt g lv _ v G L H); lia|apply Iv in H; lia]. }
      assert (SatLt : forall v k, sat_of st' v = Some k -> vid v < nx').
      { intros v k H. destruct (New v k H) as [H1|(c & Hc & Hv)].
        - destruct (li_sat _ _ _ L v k H1) as (_ & _ & H2). lia.
        - destruct (PV (atom_ok b2) (aclosed_atom b2) Cat c v Hc Hv) as [(a & Ha & _)|[_ Hx]]; [|exact (Xlt v Hx)]. rewrite En. exact (pk_lt fold q Kq v a Ha). }
      split; cbn [lv_after v_box v_stack v_sat].
      - exact Kb2.
      - exact Rg2.
      - exact Ph2.
      - intros v H. apply Bv2 in H. destruct H as [H|H].
        + destruct (li_bv _ _ _ L v H) as [H1|[H1 H2]]; [left; exact H1|right; split; [apply (ge_int _ _ Ge); exact H1|exact H2]].
        + right. split; [apply in_or_app; left; exact H|apply (Iv v H)].
      - intros v H. destruct (li_dcl _ _ _ L v H) as [H1 H2]. split; [exact H1|exact (Bi v H2)].
      - exact (li_nd _ _ _ L).
      - intros v k H. destruct (iv_sat st' I1 v k H) as [H1 H2]. split; [exact H1|]. split; [exact H2|exact (SatLt v k H)].
      - intros k v H. exact (iv_sym st' I1 k v H).
      - intros L0 l H1 H2. exact (iv_cls st' I1 L0 l H1 H2).
      - intros v k H. destruct (New v k H) as [H1|(c & Hc & Hv)].
        + destruct (li_var _ _ _ (linv_mono g g' lv _ Ge L) v k H1) as [(a & A1 & A2)|[A1 A2]]; [left; exists a; split; [exact A1|exact (atom_mono _ _ a Bi A2)]|right; split; [exact A1|]].
          destruct A2 as [A2|[A2 A3]]; [left; exact (TseOld v A2)|right; split; [exact (Bi v A2)|exact A3]].
        + destruct (PV (atom_ok b2) (aclosed_atom b2) Cat c v Hc Hv) as [(a & A1 & A2)|[A1 A2]]; [left; exists a; split; [cbn [g' g_after g_pa]; rewrite P1; exact A1|exact A2]|right].
          split; [intros a Ha; cbn [g' g_after g_pa] in Ha; rewrite P1 in Ha; exact (XK v a A2 Ha)|].
          destruct A2 as [A2|A2]; [right; split; assumption|left; exact (TseNew v A2)].
      - intros h v H Hv. apply in_app_or in H. cbn [g' g_after g_nx]. destruct H as [H|[<-|[]]]; [pose proof (li_stk _ _ _ L h v H Hv); lia|]. pose proof (Bg v Hv). lia.
      - intros E. cbn [add_assert p_asserts] in E. destruct (p_asserts p); discriminate.
      - intros rho0 Sol. pose proof Sol as Sol0. destruct (li_sem _ _ _ L rho0 Sol) as (rho & A1 & A2 & A3 & A4 & A5 & A6).
        assert (Fd : over_declared (add_assert f p) f) by (intros v Hv; exact (fv_decl v Hv)).
        apply sol_add in Sol. destruct Sol as (Sol & Rf & Hf). pose proof (agree_decl g lv _ f rho0 rho G L Fd A1) as Ag.
        apply (proj2 (reg_agree M D off_gaps) f rho0 rho Ag) in Rf. apply (holds_agree M f rho0 rho Ag) in Hf.
        destruct (Keep rho (proj2 (wf_q _ _ _) f Wf) Rf Hf) as (rho1 & B1 & B2 & B3).
        destruct (ts_convert_complete M fold gg (it_next s) cs t Un Bg Et rho1 B3) as (rho2 & C1 & C2 & C3 & C4).
        assert (Lo : forall v, vid v < g_nx g -> rho2 v = rho v).
        { intros v Hv. rewrite C1 by lia. apply B1. intros C. apply Iv in C. lia. }
        assert (R2 : regular M D gg rho2) by (apply (proj2 (reg_agree M D off_gaps) gg rho1 rho2); [intros v Hv; symmetry; apply C1; exact (Bg v Hv)|exact B2]).
        assert (Wt2 : well_typed rho2).
        { intros v. destruct (classic (In v (map fst (ts_map t)))) as [H|H]; [exact (C3 v H)|]. rewrite (C2 v H).
          destruct (classic (In v (it_vars s))) as [H1|H1]; [destruct (Iv v H1) as [-> _]; exact Logic.I|]. rewrite (B1 v H1). apply A2. }
        pose proof (ts_convert_P fold _ (aclosed_reg b2 rho2 Wt2) gg (it_next s) cs t Et (conj gg_atom R2)) as Creg.
        assert (Pa : forall b a, In (b, a) (pa_map q) -> forall v, In v (fvF a) -> ~ In v (pa_vars q)).
        { intros b a Hb v Hv C. unfold pa_vars in C. apply in_map_iff in C. destruct C as ((w & a') & E1 & E2). cbn [fst] in E1. subst w. rewrite <- P1 in Hb, E2.
          destruct (go_atom g' Gk b a v Hb Hv) as [H|H]; [exact (known_nokey g' v a' Gk H E2)|exact (int_nokey g' v a' Gk H E2)]. }
        destruct (respects_ext M fold q rho2 Kq Pa) as (rho3 & E1 & E2 & _).
        assert (Dn : denotes (tv (pa_map q) rho2) rho3).
        { intros v. unfold tv. destruct (classic (exists a, In (v, a) (pa_map q))) as [[a Ha]|Nk].
          - rewrite (E2 v a Ha). rewrite <- (holds_agree M a rho2 rho3) by (intros w Hw; symmetry; apply E1; exact (Pa v a Ha w Hw)). split; [intros H; left; exists a; auto|].
            intros [(a' & H1 & H2)|[H1 _]]; [|destruct (H1 a Ha)]. rewrite (pk_fun fold q Kq v a a' Ha H1). exact H2.
          - rewrite E1; [|intros C; unfold pa_vars in C; apply in_map_iff in C; destruct C as ((w & a') & F1 & F2); cbn [fst] in F1; subst w; apply Nk; eauto].
            split; [intros H; right; split; [intros a Ha; apply Nk; eauto|exact H]|]. intros [(a' & H1 & _)|[_ H]]; [destruct Nk; eauto|exact H]. }
        exists rho2. split; [|split; [|split; [|split; [|split]]]].
        + intros v Hv. cbn [g' g_after g_int] in Hv. rewrite C2, B1; [apply A1| |]; intros C; apply Hv; apply in_or_app; [right; apply in_or_app; right; exact C|left; exact C|right; apply in_or_app; left; exact C].
        + exact Wt2.
        + apply In2. destruct A3 as [E0 A3]. split; [exact E0|]. intros i v Hi'. rewrite Lo; [exact (A3 i v Hi')|]. apply (bv_lt g lv _ v G L). exact (nth_error_In _ _ Hi').
        + cbn [g' g_after g_pa]. rewrite P1. apply (Sm1 (tv (pa_map q) rho2) rho3 Dn).
          * intros h Hh. destruct (Forall2_In_r _ _ _ _ Post Hh) as (c & Hc & _ & Hp). apply Hp; [exact E2|].
            apply (holds_agree M c rho2 rho3); [|exact (C4 c Hc)]. intros v Hv. symmetry. apply E1. intros C. unfold pa_vars in C. apply in_map_iff in C.
            destruct C as ((w & a') & F1 & F2). cbn [fst] in F1. subst w. exact (Hnk c v a' Hc Hv F2).
          * intros L0 HL. change (ctrue (tv (pa_map q) rho2) (l_sym (slv st)) L0). rewrite Est. change (In L0 (l_cls (slv st))) in HL. rewrite Est in HL.
            apply (ctrue_ext (tv (g_pa g) rho)); [|exact (A4 L0 HL)]. intros l v Hl Ev. apply (li_sym _ _ _ L) in Ev.
            destruct (li_sat _ _ _ L v (fst l) Ev) as (_ & _ & Hlt).
            rewrite (tv_ext (g_pa g) (pa_map q) rho2 v (g_nx g) Iq); [|intros w a Hw; destruct (Nid w a Hw); [left; assumption|right; lia]|exact Hlt].
            apply (tv_below _ rho rho2 v (g_nx g) Lo Hlt). intros a w Ha Hw. destruct (go_atom g G v a w Ha Hw) as [H|H]; [exact (known_lt g w G H)|apply (go_int g G) in H; lia].
        + intros h Hh. apply in_app_or in Hh. destruct Hh as [Hh|[<-|[]]].
          * apply (holds_agree M h rho rho2); [|exact (A5 h Hh)]. intros v Hv. symmetry. apply Lo. exact (li_stk _ _ _ L h v Hh Hv).
          * apply (holds_agree M gg rho1 rho2); [|exact B3]. intros v Hv. symmetry. apply C1. exact (Bg v Hv).
        + intros v k a Hk Ha. cbn [g' g_after g_pa] in Ha. rewrite P1 in Ha. destruct (New v k Hk) as [H1|(c & Hc & Hv)].
          * destruct (li_sat _ _ _ L v k H1) as (_ & _ & Hlt). destruct (Nid v a Ha) as [Ha'|]; [|lia].
            apply (proj2 (reg_agree M D off_gaps) a rho rho2); [|exact (A6 v k a H1 Ha')]. intros w Hw. symmetry. apply Lo.
            destruct (go_atom g G v a w Ha' Hw) as [H|H]; [exact (known_lt g w G H)|apply (go_int g G) in H; lia].
          * destruct (PV _ (aclosed_reg b2 rho2 Wt2) Creg c v Hc Hv) as [(a' & F1 & _ & F2)|[_ F]]; [|destruct (XK v a F Ha)]. rewrite (pk_fun fold q Kq v a a' Ha F1). exact F2.
    Qed.
  End AssertFull.
End Inv.
