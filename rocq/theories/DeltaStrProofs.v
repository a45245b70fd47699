(** * Strengthening leaves room delta, weakening allows delta *)
From Coq Require Import ZArith Reals Lra Lia List Bool ClassicalDescription Classical.
From Flocq Require Import IEEE754.BinarySingleNaN.
From Verif Require Import Dbl DblProofs Syntax Sem SemProofs FormulaCons FormulaConsProofs IEval StdInterp MathConv ExplainProofs IteElimProofs Order ExprAlg SpecAlg PowProofs ExprAlgProofs AlgClosed CmpSound DeltaStr.
Import ListNotations.
Local Open Scope R_scope.

Section Str.
  Variables (uf : nat -> list R -> R) (rc : dbl -> dbl -> R) (fpow : dbl -> dbl -> dbl) (n : nat).
  Notation M := (std uf rc).
  Notation ev := (evalE M).
  Notation hd := (holds M).
  Notation df := (defE M stdD).
  Notation dF := (defF M stdD).
  Notation ok := (Forall (exact M)).
  Notation gets := (yields M stdD).

  (** ** Terms without if-then-else are rebuilt with the same value *)
  Definition same (vis : expr -> comp expr) (rho : env) (e : expr) : Prop :=
    hasIteE e = false -> df e rho -> gets (vis e) rho (ev e rho).

  Lemma str_sum_ev vis rho ts : Forall (fun p => same vis rho (fst p)) ts ->
    existsb (fun p => match p with (a, _) => hasIteE a end) ts = false -> sumd uf rc ts rho ->
    forall acc, df acc rho -> gets (str_sum fpow n vis ts acc) rho (ev acc rho + sumv uf rc ts rho).
  Proof.
    intros HP. induction HP as [|[a k] ts Ha HP IH]; intros Hi D acc Dc; cbn [str_sum].
    - apply gets_ret; auto. simpl. ring.
    - cbn [existsb] in Hi. apply orb_false_iff in Hi. destruct Hi as [Ia Is]. destruct D as [Da Ds].
      apply gets_bind. intros a' t E Ht. destruct (Ha Ia Da _ _ E Ht) as [D1 V1].
      apply gets_bind. intros p t' E' Ht'. destruct (mk_mul_ev uf rc fpow n (mk_const k) a' rho I D1 _ _ E' Ht') as [D2 V2].
      apply gets_bind. intros acc' t'' E'' Ht''. destruct (mk_add_ev uf rc fpow n acc p rho Dc D2 _ _ E'' Ht'') as [D3 V3].
      eapply gets_eq; [|apply IH; auto]. rewrite V3, V2, mk_const_ev, V1. cbn [fst sumv fold_right]. fold (sumv uf rc ts rho). ring.
  Qed.
  Lemma str_prod_ev vis rho ts : Forall (fun p => same vis rho (fst p) /\ same vis rho (snd p)) ts ->
    existsb (fun p => match p with (a, b) => hasIteE a || hasIteE b end) ts = false -> prodd uf rc ts rho ->
    forall acc, df acc rho -> gets (str_prod fpow n vis ts acc) rho (ev acc rho * prodv uf rc ts rho).
  Proof.
    intros HP. induction HP as [|[a b] ts Hab HP IH]; intros Hi D acc Dc; cbn [str_prod].
    - apply gets_ret; auto. simpl. ring.
    - destruct Hab as [Ha Hb]. cbn [existsb] in Hi. apply orb_false_iff in Hi. destruct Hi as [Iab Is].
      apply orb_false_iff in Iab. destruct Iab as [Ia Ib]. destruct D as [(Da & Db & P) Ds].
      apply gets_bind. intros a' t E Ht. destruct (Ha Ia Da _ _ E Ht) as [D1 V1]. cbn [fst snd] in *.
      apply gets_bind. intros b' t' E' Ht'. destruct (Hb Ib Db _ _ E' Ht') as [D2 V2].
      rewrite <- V1, <- V2 in P.
      apply gets_bind. intros p t2 E2 Ht2. destruct (mk_pow_ev uf rc fpow a' b' rho D1 D2 P _ _ E2 Ht2) as [D3 V3].
      apply gets_bind. intros acc' t3 E3 Ht3. destruct (mk_mul_ev uf rc fpow n acc p rho Dc D3 _ _ E3 Ht3) as [D4 V4].
      eapply gets_eq; [|apply IH; auto]. rewrite V4, V3, V1, V2. cbn [prodv fold_right]. fold (prodv uf rc ts rho). ring.
  Qed.
  Lemma strE_ev k d rho : forall e, same (strE fpow n k d) rho e.
  Proof.
    induction k as [|k IH]; intros e Hi D; [apply gets_fuel|].
    destruct e as [c|lb ub u|v|c ts|c ts|o a|o a b|f a b|m vs]; cbn [strE]; try (apply gets_ret; auto; fail).
    - destruct (is_nan c); [apply gets_throw|apply gets_ret; auto].
    - eapply gets_eq; [|apply str_sum_ev; auto; try exact I].
      + rewrite mk_const_ev, ev_add. reflexivity.
      + apply Forall_forall. intros p _. apply IH.
    - eapply gets_eq; [|apply str_prod_ev; auto; try exact I].
      + rewrite mk_const_ev, ev_mul. reflexivity.
      + apply Forall_forall. intros p _. split; apply IH.
    - destruct D as [Da U]. apply gets_bind. intros a' t E Ht. destruct (IH a Hi Da _ _ E Ht) as [D1 V1].
      eapply gets_eq; [|apply mk_un_ev; auto]; [|rewrite V1; exact U]. rewrite V1. reflexivity.
    - cbn [hasIteE] in Hi. apply orb_false_iff in Hi. destruct Hi as [Ia Ib]. destruct D as (Da & Db & U).
      apply gets_bind. intros a' t E Ht. destruct (IH a Ia Da _ _ E Ht) as [D1 V1].
      apply gets_bind. intros b' t' E' Ht'. destruct (IH b Ib Db _ _ E' Ht') as [D2 V2].
      eapply gets_eq; [|apply mk_bin_ev; auto]; [|rewrite V1, V2; exact U]. rewrite V1, V2. reflexivity.
    - discriminate.
  Qed.

  (** ** Relations *)
  Lemma str_rel_ev vis rho op d a b g t : same vis rho a -> same vis rho b -> hasIteE a = false -> hasIteE b = false ->
    df a rho -> df b rho -> op <> REq -> op <> RNeq -> str_rel fpow n vis op d a b = (Val g, t) -> ok t ->
    dF g rho /\ (hd g rho <-> slackR (B2R d) op (ev a rho) (ev b rho)).
  Proof.
    intros Sa Sb Ia Ib Da Db N1 N2 E Ht. unfold str_rel in E.
    inb E. inb H0. apply Forall_app in Ht. destruct Ht as [O1 Ht]. apply Forall_app in Ht. destruct Ht as [O2 O3].
    destruct (Sa Ia Da _ _ H O1) as [D1 V1]. destruct (Sb Ib Db _ _ H1 O2) as [D2 V2].
    rewrite <- V1, <- V2.
    assert (Up : forall p x y, (bind (mk_sub fpow n x (mk_const d)) (fun x' => mk_relm fpow n p x' y)) = (Val g, t2) ->
                 df x rho -> df y rho -> dF g rho /\ (hd g rho <-> relR p (ev x rho - B2R d) (ev y rho))).
    { intros p x y E Dx Dy. inb E. apply Forall_app in O3. destruct O3 as [O3 O4].
      destruct (mk_sub_ev uf rc fpow n x (mk_const d) rho Dx I _ _ H0 O3) as [D3 V3]. rewrite mk_const_ev in V3.
      destruct (mk_relm_ev uf rc fpow n p a2 y rho g _ H3 O4 D3 Dy) as [D4 V4]. rewrite V3 in V4. auto. }
    assert (Up' : forall p x y, (bind (mk_sub fpow n y (mk_const d)) (fun y' => mk_relm fpow n p x y')) = (Val g, t2) ->
                 df x rho -> df y rho -> dF g rho /\ (hd g rho <-> relR p (ev x rho) (ev y rho - B2R d))).
    { intros p x y E Dx Dy. inb E. apply Forall_app in O3. destruct O3 as [O3 O4].
      destruct (mk_sub_ev uf rc fpow n y (mk_const d) rho Dy I _ _ H0 O3) as [D3 V3]. rewrite mk_const_ev in V3.
      destruct (mk_relm_ev uf rc fpow n p x a2 rho g _ H3 O4 Dx D3) as [D4 V4]. rewrite V3 in V4. auto. }
    assert (Ad : forall p x y, (bind (mk_add fpow n x (mk_const d)) (fun x' => mk_relm fpow n p x' y)) = (Val g, t2) ->
                 df x rho -> df y rho -> dF g rho /\ (hd g rho <-> relR p (ev x rho + B2R d) (ev y rho))).
    { intros p x y E Dx Dy. inb E. apply Forall_app in O3. destruct O3 as [O3 O4].
      destruct (mk_add_ev uf rc fpow n x (mk_const d) rho Dx I _ _ H0 O3) as [D3 V3]. rewrite mk_const_ev in V3.
      destruct (mk_relm_ev uf rc fpow n p a2 y rho g _ H3 O4 D3 Dy) as [D4 V4]. rewrite V3 in V4. auto. }
    assert (Ad' : forall p x y, (bind (mk_add fpow n y (mk_const d)) (fun y' => mk_relm fpow n p x y')) = (Val g, t2) ->
                 df x rho -> df y rho -> dF g rho /\ (hd g rho <-> relR p (ev x rho) (ev y rho + B2R d))).
    { intros p x y E Dx Dy. inb E. apply Forall_app in O3. destruct O3 as [O3 O4].
      destruct (mk_add_ev uf rc fpow n y (mk_const d) rho Dy I _ _ H0 O3) as [D3 V3]. rewrite mk_const_ev in V3.
      destruct (mk_relm_ev uf rc fpow n p x a2 rho g _ H3 O4 Dx D3) as [D4 V4]. rewrite V3 in V4. auto. }
    destruct op; try congruence; cbn [slackR];
      match type of H2 with (if ?c then _ else _) = _ => destruct c end;
      first [apply Up in H2|apply Up' in H2|apply Ad in H2|apply Ad' in H2]; auto;
      destruct H2 as [K1 K2]; split; auto; rewrite K2; cbn [relR]; lra.
  Qed.
  Lemma str_relF_ev vis rho op d f g t a b : (forall e, same vis rho e) -> (forall p x y, f = FRel p x y -> x = a /\ y = b) ->
    hasIteE a = false -> hasIteE b = false ->
    df a rho -> df b rho -> op <> REq -> op <> RNeq -> str_relF fpow n vis op d f = (Val g, t) -> ok t ->
    dF g rho /\ (hd g rho <-> slackR (B2R d) op (ev a rho) (ev b rho)).
  Proof.
    intros S Hf Ia Ib Da Db N1 N2 E Ht. destruct f as [| | |p x y| | | |]; try discriminate.
    destruct (Hf _ _ _ eq_refl) as [-> ->]. apply (str_rel_ev vis rho op d a b g t); auto.
  Qed.
  Lemma relm_shape op a b f t p x y : mk_relm fpow n op a b = (Val f, t) -> f = FRel p x y -> x = a /\ y = b.
  Proof.
    intros E ->. unfold mk_relm in E. inb E.
    assert (K : ret (FRel op a b) = (Val (FRel p x y), t1) -> x = a /\ y = b).
    { intros X. apply ret_val in X. destruct X as [X _]. inversion X; auto. }
    destruct a0 as [c| | | | | | | |]; auto. destruct (is_nan c); auto.
    inb H0. apply ret_val in H2. destruct H2 as [X _]. destruct (relop_on op c); discriminate.
  Qed.

  (** ** Visiting introduces no if-then-else *)
  Lemma exact_N t : ok t -> Forall (exactN M) t.
  Proof. apply Forall_impl. intros []; cbn; auto. Qed.
  Definition nice (e : expr) : Prop := hasIteE e = false.
  Lemma strE_nice k d : forall e, nice e -> pres M nice nice (strE fpow n k d e).
  Proof.
    pose proof closed_noite as K.
    induction k as [|k IH]; intros e He; [apply pres_fuel|].
    destruct e as [c|lb ub u|v|c ts|c ts|o a|o a b|f a b|m vs]; cbn [strE]; try (apply pres_ret; auto; fail).
    - destruct (is_nan c); [apply pres_throw|now apply pres_ret].
    - assert (Hts : mapA (fun _ => True) nice ts) by (apply (ka _ _ K) in He; exact (proj2 He)).
      assert (G : forall acc, nice acc -> pres M nice nice (str_sum fpow n (strE fpow n k d) ts acc)).
      { clear He. revert Hts. induction ts as [|[a j] ts IHt]; intros Hts acc Ha; cbn [str_sum]; [now apply pres_ret|].
        apply mapA_inv in Hts. destruct Hts as (H1 & H2 & H3).
        eapply pres_bind; [apply IH; exact H1|]. intros a' Ha'.
        eapply pres_bind; [apply (mk_mul_P M fpow _ _ K); auto; reflexivity|]. intros p Hp.
        eapply pres_bind; [apply (mk_add_P M fpow _ _ K); auto|]. intros acc' Hacc'. now apply IHt. }
      apply G. reflexivity.
    - assert (Hts : mapM nice ts) by (apply (km _ _ K) in He; exact (proj2 He)).
      assert (G : forall acc, nice acc -> pres M nice nice (str_prod fpow n (strE fpow n k d) ts acc)).
      { clear He. revert Hts. induction ts as [|[a j] ts IHt]; intros Hts acc Ha; cbn [str_prod]; [now apply pres_ret|].
        apply mapM_inv in Hts. destruct Hts as (H1 & H2 & H3).
        eapply pres_bind; [apply IH; exact H1|]. intros a' Ha'. eapply pres_bind; [apply IH; exact H2|]. intros j' Hj'.
        eapply pres_bind; [apply (mk_pow_P M fpow _ _ K); auto|]. intros p Hp.
        eapply pres_bind; [apply (mk_mul_P M fpow _ _ K); auto|]. intros acc' Hacc'. now apply IHt. }
      apply G. reflexivity.
    - eapply pres_bind; [apply IH; exact He|]. intros a' Ha'. now apply (mk_un_P M _ _ K).
    - apply (kb _ _ K) in He. destruct He as [H1 H2].
      eapply pres_bind; [apply IH; exact H1|]. intros a' Ha'. eapply pres_bind; [apply IH; exact H2|]. intros b' Hb'.
      now apply (mk_bin_P M fpow _ _ K).
    - discriminate.
  Qed.

  (** ** Formulas *)
  Lemma pos_R d : is_finite d = true -> (dlt dzero d = true <-> 0 < B2R d).
  Proof.
    intros F. assert (Nd : is_nan d = false) by (now destruct d). rewrite dlt_spec by auto.
    rewrite (finite_d2e d F). change (d2e dzero) with (Fin 0). apply ext_lt_fin.
  Qed.
  Lemma strF_ev k : forall d f rho g t, is_finite d = true -> B2R d <> 0 -> hasIteF f = false -> dF f rho ->
    strF fpow n k d f = (Val g, t) -> ok t -> dF g rho /\ (hd g rho <-> slack M (B2R d) f rho).
  Proof.
    induction k as [|k IH]; intros d f rho g t Fd Nz Hi D E Ht; [discriminate|].
    pose proof (strE_ev k d rho) as S.
    destruct f as [| |v|o a b|fs|fs|f|vs f].
    - apply ret_val in E. destruct E as [-> _]. split; [exact I|apply iff_refl].
    - apply ret_val in E. destruct E as [-> _]. split; [exact I|apply iff_refl].
    - apply ret_val in E. destruct E as [-> _]. split; [exact I|apply iff_refl].
    - cbn [hasIteF] in Hi. apply orb_false_iff in Hi. destruct Hi as [Ia Ib]. destruct D as [Da Db].
      change (df a rho) in Da. change (df b rho) in Db.
      change (slack M (B2R d) (FRel o a b) rho) with (slackR (B2R d) o (ev a rho) (ev b rho)).
      destruct o; try (apply (str_rel_ev (strE fpow n k d) rho _ d a b g t); auto; discriminate).
      + change (str_eq fpow n (strE fpow n k d) d (FRel REq a b) a b = (Val g, t)) in E. unfold str_eq in E. cbn [slackR]. destruct (dlt dzero d) eqn:Ep.
        * apply ret_val in E. destruct E as [-> _]. apply pos_R in Ep; auto. destruct (Rlt_dec 0 (B2R d)); [|lra].
          split; [exact (conj Da Db)|apply iff_refl].
        * assert (Np : ~ 0 < B2R d) by (intros X; apply pos_R in X; auto; congruence). destruct (Rlt_dec 0 (B2R d)); [lra|].
          inb E. inb H0. inb H2. inb H3. inb H4. inb H5. apply ret_val in H6. destruct H6 as [-> ->].
          repeat match goal with X : ok (_ ++ _) |- _ => apply Forall_app in X; destruct X end.
          destruct (S a Ia Da _ _ H ltac:(auto)) as [D1 V1]. destruct (S b Ib Db _ _ H1 ltac:(auto)) as [D2 V2].
          destruct (strE_nice k d a Ia _ _ H (exact_N t0 ltac:(assumption))) as [N1 _]. destruct (strE_nice k d b Ib _ _ H1 (exact_N t ltac:(assumption))) as [N2 _].
          assert (X1 := str_relF_ev (strE fpow n k d) rho RGeq d a2 a3 t2 a0 a1 S (fun p x y => relm_shape _ _ _ _ _ p x y H0) N1 N2 D1 D2 ltac:(discriminate) ltac:(discriminate) H2 ltac:(assumption)).
          assert (X2 := str_relF_ev (strE fpow n k d) rho RLeq d a4 a5 t4 a0 a1 S (fun p x y => relm_shape _ _ _ _ _ p x y H3) N1 N2 D1 D2 ltac:(discriminate) ltac:(discriminate) H4 ltac:(assumption)).
          destruct X1 as [Y1 Z1], X2 as [Y2 Z2]. split; [apply (c_and _ (closed_def M stdD rho)); auto|].
          rewrite mk_and_holds, Z1, Z2. cbn [slackR]. rewrite V1, V2. split; [intros [A B]; apply Rabs_le; lra|].
          intros A. pose proof (Rle_abs (ev a rho - ev b rho)). pose proof (Rle_abs (- (ev a rho - ev b rho))) as B. rewrite Rabs_Ropp in B. lra.
      + change (str_neq fpow n (strE fpow n k d) d a b = (Val g, t)) in E. unfold str_neq in E. cbn [slackR]. destruct (dlt dzero d) eqn:Ep.
        * apply pos_R in Ep; auto. destruct (Rlt_dec 0 (B2R d)); [|lra].
          inb E. inb H0. inb H2. inb H3. inb H4. inb H5. apply ret_val in H6. destruct H6 as [-> ->].
          repeat match goal with X : ok (_ ++ _) |- _ => apply Forall_app in X; destruct X end.
          destruct (S a Ia Da _ _ H ltac:(auto)) as [D1 V1]. destruct (S b Ib Db _ _ H1 ltac:(auto)) as [D2 V2].
          destruct (strE_nice k d a Ia _ _ H (exact_N t0 ltac:(assumption))) as [N1 _]. destruct (strE_nice k d b Ib _ _ H1 (exact_N t ltac:(assumption))) as [N2 _].
          assert (X1 := str_relF_ev (strE fpow n k d) rho RGt d a2 a3 t2 a0 a1 S (fun p x y => relm_shape _ _ _ _ _ p x y H0) N1 N2 D1 D2 ltac:(discriminate) ltac:(discriminate) H2 ltac:(assumption)).
          assert (X2 := str_relF_ev (strE fpow n k d) rho RLt d a4 a5 t4 a0 a1 S (fun p x y => relm_shape _ _ _ _ _ p x y H3) N1 N2 D1 D2 ltac:(discriminate) ltac:(discriminate) H4 ltac:(assumption)).
          destruct X1 as [Y1 Z1], X2 as [Y2 Z2]. split; [apply (c_or _ (closed_def M stdD rho)); auto|].
          rewrite mk_or_holds, Z1, Z2. cbn [slackR]. rewrite V1, V2. unfold Rabs. destruct (Rcase_abs (ev a rho - ev b rho)); lra.
        * apply ret_val in E. destruct E as [-> _].
          assert (Np : ~ 0 < B2R d) by (intros X; apply pos_R in X; auto; congruence). destruct (Rlt_dec 0 (B2R d)); [lra|].
          split; [exact I|cbn; tauto].
    - assert (G : forall acc, dF acc rho -> str_and (strF fpow n k d) fs acc = (Val g, t) ->
          dF g rho /\ (hd g rho <-> hd acc rho /\ slack M (B2R d) (FAnd fs) rho)).
      { clear E. revert t Ht. induction fs as [|f fs IHf]; intros t Ht acc Da E; cbn [str_and] in E.
        - apply ret_val in E. destruct E as [-> _]. split; auto. cbn. tauto.
        - cbn [hasIteF existsb] in Hi. apply orb_false_iff in Hi. destruct Hi as [If Ifs]. destruct D as [Df Dfs].
          inb E. apply Forall_app in Ht. destruct Ht as [O1 O2].
          destruct (IH d f rho _ _ Fd Nz If Df H O1) as [D1 V1].
          destruct (IHf Ifs Dfs _ O2 _ (c_and _ (closed_def M stdD rho) _ _ Da D1) H0) as [D2 V2].
          split; auto. rewrite V2, mk_and_holds, V1. cbn [slack fold_right]. tauto. }
      destruct (G FTrue I E) as [D1 V1]. split; auto. rewrite V1. cbn [holds]. tauto.
    - assert (G : forall acc, dF acc rho -> str_or (strF fpow n k d) fs acc = (Val g, t) ->
          dF g rho /\ (hd g rho <-> hd acc rho \/ slack M (B2R d) (FOr fs) rho)).
      { clear E. revert t Ht. induction fs as [|f fs IHf]; intros t Ht acc Da E; cbn [str_or] in E.
        - apply ret_val in E. destruct E as [-> _]. split; auto. cbn. tauto.
        - cbn [hasIteF existsb] in Hi. apply orb_false_iff in Hi. destruct Hi as [If Ifs]. destruct D as [Df Dfs].
          inb E. apply Forall_app in Ht. destruct Ht as [O1 O2].
          destruct (IH d f rho _ _ Fd Nz If Df H O1) as [D1 V1].
          destruct (IHf Ifs Dfs _ O2 _ (c_or _ (closed_def M stdD rho) _ _ Da D1) H0) as [D2 V2].
          split; auto. rewrite V2, mk_or_holds, V1. cbn [slack fold_right]. tauto. }
      destruct (G FFalse I E) as [D1 V1]. split; auto. rewrite V1. cbn [holds]. tauto.
    - change (bind (strF fpow n k (dopp d) f) (fun g' => ret (mk_not g')) = (Val g, t)) in E. inb E. apply ret_val in H0. destruct H0 as [-> ->]. rewrite app_nil_r in Ht.
      assert (Fo : is_finite (dopp d) = true) by (unfold dopp; now rewrite is_finite_Bopp).
      assert (Eo : B2R (dopp d) = - B2R d) by (unfold dopp; apply B2R_Bopp).
      destruct (IH (dopp d) f rho _ _ Fo ltac:(rewrite Eo; lra) Hi D H Ht) as [D1 V1].
      split; [apply (c_not _ (closed_def M stdD rho)); auto|]. rewrite mk_not_holds, V1, Eo. cbn [slack]. tauto.
    - discriminate.
  Qed.

  Lemma strengthen_ev k d f rho g t : is_finite d = true -> hasIteF f = false -> dF f rho ->
    DeltaStrengthen fpow n k f d = (Val g, t) -> ok t ->
    dF g rho /\ (hd g rho <-> (B2R d = 0 /\ hd f rho) \/ (B2R d <> 0 /\ slack M (B2R d) f rho)).
  Proof.
    intros Fd Hi D E Ht. unfold DeltaStrengthen in E. destruct (deq d dzero) eqn:Ez.
    - apply ret_val in E. destruct E as [-> _]. apply deq_zero in Ez. split; auto. intuition congruence.
    - assert (Nz : B2R d <> 0).
      { intros X. assert (Y : deq d dzero = true); [|congruence]. apply deq_spec; [now destruct d|reflexivity|].
        rewrite (finite_d2e d Fd), X. reflexivity. }
      destruct (strF_ev k d f rho g t Fd Nz Hi D E Ht) as [D1 V1]. split; auto. rewrite V1. tauto.
  Qed.
End Str.

(** Room implies truth, truth implies tolerance. *)
Lemma slackR_strong d op a b : 0 < d -> slackR d op a b -> relR op a b.
Proof.
  intros Hd. destruct op; cbn [slackR relR]; try (intros; lra).
  - destruct (Rlt_dec 0 d); [auto|lra].
  - destruct (Rlt_dec 0 d); [|lra]. intros H X. subst. unfold Rminus in H. rewrite Rplus_opp_r, Rabs_R0 in H. lra.
Qed.
Lemma slackR_weak d op a b : 0 < d -> relR op a b -> slackR (- d) op a b.
Proof.
  intros Hd. destruct op; cbn [slackR relR]; try (intros; lra).
  - destruct (Rlt_dec 0 (- d)); [lra|]. intros ->. unfold Rminus. rewrite Rplus_opp_r, Rabs_R0. lra.
  - destruct (Rlt_dec 0 (- d)); [lra|auto].
Qed.
Lemma slack_mono M f : forall d rho, 0 < d -> (slack M d f rho -> holds M f rho) /\ (holds M f rho -> slack M (- d) f rho).
Proof.
  induction f as [| |v|o a b|fs IH|fs IH|f IH|vs f IH] using formula_ind'; intros d rho Hd; try (split; auto; fail).
  - split; [apply (slackR_strong d o _ _ Hd)|apply (slackR_weak d o _ _ Hd)].
  - induction fs as [|f fs IHf]; [split; auto|]. inversion IH; subst. destruct (IHf H2) as [A B]. destruct (H1 d rho Hd) as [A1 B1].
    split; intros [X Y]; [exact (conj (A1 X) (A Y))|exact (conj (B1 X) (B Y))].
  - induction fs as [|f fs IHf]; [split; auto|]. inversion IH; subst. destruct (IHf H2) as [A B]. destruct (H1 d rho Hd) as [A1 B1].
    split; (intros [X|Y]; [left|right]); [exact (A1 X)|exact (A Y)|exact (B1 X)|exact (B Y)].
  - destruct (IH d rho Hd) as [A B]. split.
    + intros X Y. apply X. exact (B Y).
    + intros X Y. apply X. apply A. cbn [slack] in Y. now rewrite Ropp_involutive in Y.
  - split; intros X rho' H1 H2; apply (IH d rho' Hd); exact (X rho' H1 H2).
Qed.
