(** * Substitution computes the value in the updated environment *)
From Coq Require Import ZArith Reals Lra Lia List Bool ClassicalDescription Classical.
From Flocq Require Import IEEE754.BinarySingleNaN.
From Verif Require Import Dbl DblProofs Syntax Sem SemProofs FormulaCons FormulaConsProofs IEval StdInterp MathConv ExplainProofs IteElimProofs Order ExprAlg SpecAlg PowProofs ExprAlgProofs Subst.
Import ListNotations.
Local Open Scope R_scope.

Lemma slookup_image {A} v (s : list (var * A)) : slookup v s = image v s.
Proof.
  unfold image. induction s as [|[w a] s IH]; cbn [slookup find fst]; auto.
  destruct (var_eqb v w); auto.
Qed.
Lemma slookup_erase {A} v vs (s : list (var * A)) :
  slookup v (serase vs s) = if mem_var v vs then None else slookup v s.
Proof.
  unfold serase. induction s as [|[w a] s IH]; cbn [slookup filter fst]; [now destruct (mem_var v vs)|].
  destruct (mem_var w vs) eqn:Ew; cbn [negb slookup]; rewrite IH.
  - destruct (var_eqb v w) eqn:E; auto. apply var_eqb_eq in E. subst. now rewrite Ew.
  - destruct (var_eqb v w) eqn:E; auto. apply var_eqb_eq in E. subst. now rewrite Ew.
Qed.
Lemma mem_filter v (p : var -> bool) vs : p v = true -> mem_var v (filter p vs) = mem_var v vs.
Proof.
  intros Hp. apply eq_true_iff_eq. rewrite !mem_var_In, filter_In. tauto.
Qed.

Lemma mk_forall_defF M D vs f rho : defF M D (FForall vs f) rho -> defF M D (mk_forall vs f) rho.
Proof.
  intros H. unfold mk_forall. cbn [defF] in *. intros rho' Hoff Hty.
  apply (proj2 (def_agree M D) f (fun v => if in_dec var_eq_dec v vs then
                              (if in_dec var_eq_dec v (fvF f) then rho' v else 0%R) else rho' v)).
  - intros v Hv. destruct (in_dec var_eq_dec v vs); auto.
    destruct (in_dec var_eq_dec v (fvF f)); tauto.
  - apply H.
    + intros v Hv. destruct (in_dec var_eq_dec v vs); [tauto|].
      apply Hoff. intro X. apply filter_In in X. tauto.
    + intros v Hv. destruct (in_dec var_eq_dec v vs); [|tauto].
      destruct (in_dec var_eq_dec v (fvF f)); [|apply typed_val_inhabited].
      apply Hty, filter_In. split; auto. now apply mem_var_In.
Qed.

Section Subst.
  Variables (uf : nat -> list R -> R) (rc : dbl -> dbl -> R) (fpow : dbl -> dbl -> dbl) (n : nat).
  Notation M := (std uf rc).
  Notation ev := (evalE M).
  Notation hd := (holds M).
  Notation df := (defE M stdD).
  Notation dF := (defF M stdD).
  Notation ok := (Forall (exact M)).
  Notation gets := (yields M stdD).
  Variables (sE : list (var * expr)) (sF : list (var * formula)) (rho0 : env).

  Definition inv (bs : list var) (sE' : list (var * expr)) (sF' : list (var * formula)) : Prop :=
    (forall v, vty v <> BOOLEAN -> slookup v sE' = if mem_var v bs then None else slookup v sE) /\
    (forall v, vty v = BOOLEAN -> slookup v sF' = if mem_var v bs then None else slookup v sF).
  Definition upd := updated M sE sF rho0.
  Definition rel (bs : list var) (rho r : env) : Prop :=
    agree_off bs rho0 rho /\ (forall v, r v = if mem_var v bs then rho v else upd v).
  Definition idefs (bs : list var) (vs : list var) : Prop :=
    forall v, In v vs -> ~ In v bs -> idef M stdD sE sF rho0 v.

  Lemma inv_erase bs sE' sF' vs : inv bs sE' sF' ->
    inv (vs ++ bs) (serase (filter (fun v => negb (vtype_eqb (vty v) BOOLEAN)) vs) sE')
                   (serase (filter (fun v => vtype_eqb (vty v) BOOLEAN) vs) sF').
  Proof.
    assert (K : forall v, mem_var v (vs ++ bs) = mem_var v vs || mem_var v bs).
    { intros v. unfold mem_var. apply existsb_app. }
    intros [I1 I2]. split; intros v Hv; rewrite slookup_erase, K, mem_filter;
      try (rewrite Hv; reflexivity); try (destruct (vty v); try reflexivity; congruence);
      rewrite ?I1, ?I2 by auto; destruct (mem_var v vs); reflexivity.
  Qed.

  Definition PE (e : expr) : Prop := forall bs sE' sF' rho r, inv bs sE' sF' -> rel bs rho r ->
    sokE sE sF bs e -> idefs bs (fvE e) -> df e r -> gets (substE fpow n sE' sF' e) rho (ev e r).
  Definition PF (f : formula) : Prop := forall bs sE' sF' rho r, inv bs sE' sF' -> rel bs rho r ->
    sokF sE sF bs f -> idefs bs (fvF f) -> dF f r -> forall g t, substF fpow n sE' sF' f = (Val g, t) -> ok t ->
    dF g rho /\ (hd g rho <-> hd f r).

  Lemma idefs_app bs xs ys : idefs bs (xs ++ ys) -> idefs bs xs /\ idefs bs ys.
  Proof. intros H; split; intros v Hv; apply H; apply in_or_app; auto. Qed.

  Lemma add_loop_ev bs sE' sF' rho r ts : inv bs sE' sF' -> rel bs rho r ->
    Forall (fun p => PE (fst p)) ts ->
    fold_right (fun p acc => match p with (a, _) => sokE sE sF bs a /\ acc end) True ts ->
    idefs bs (flat_map (fun p => match p with (a, _) => fvE a end) ts) ->
    sumd uf rc ts r -> forall f f' t, add_loop fpow n (substE fpow n sE' sF') ts f = (Val f', t) -> ok t ->
    sumd uf rc (snd f) rho ->
    sumd uf rc (snd f') rho /\ B2R (fst f') + sumv uf rc (snd f') rho = B2R (fst f) + sumv uf rc (snd f) rho + sumv uf rc ts r.
  Proof.
    intros Hi Hr HP. induction HP as [|[a k] ts Ha HP IH]; intros Hs Hd D f f' t E Ht Df; cbn [add_loop] in E.
    - apply ret_val in E. destruct E as [-> _]. split; auto. simpl. ring.
    - cbn [fold_right] in Hs. destruct Hs as [Sa Ss]. cbn [flat_map] in Hd. apply idefs_app in Hd. destruct Hd as [Ia Is].
      destruct D as [Da Ds].
      inb E. inb H0. inb H2. apply Forall_app in Ht. destruct Ht as [O1 Ht]. apply Forall_app in Ht. destruct Ht as [O2 Ht].
      apply Forall_app in Ht. destruct Ht as [O3 O4].
      destruct (Ha bs sE' sF' rho r Hi Hr Sa Ia Da _ _ H O1) as [D1 V1].
      destruct (mk_mul_ev uf rc fpow n a0 (mk_const k) rho D1 I _ _ H1 O2) as [D2 V2].
      destruct f as [c m]. destruct a2 as [c' m'].
      destruct (add_expr_ev uf rc fpow _ _ _ _ _ _ _ H0 O3 D2 Df) as [D3 V3].
      destruct (IH Ss Is Ds _ _ _ H3 O4 D3) as [D4 V4]. split; auto. rewrite V4. cbn [fst snd]. rewrite V3.
      rewrite V2, mk_const_ev, V1. cbn [fst sumv fold_right]. fold (sumv uf rc ts r). ring.
  Qed.
  Lemma mul_loop_ev bs sE' sF' rho r ts : inv bs sE' sF' -> rel bs rho r ->
    Forall (fun p => PE (fst p) /\ PE (snd p)) ts ->
    fold_right (fun p acc => match p with (a, b) => (sokE sE sF bs a /\ sokE sE sF bs b) /\ acc end) True ts ->
    idefs bs (flat_map (fun p => match p with (a, b) => fvE a ++ fvE b end) ts) ->
    prodd uf rc ts r -> forall f f' t, mul_loop fpow n (substE fpow n sE' sF') ts f = (Val f', t) -> ok t ->
    prodd uf rc (snd f) rho ->
    prodd uf rc (snd f') rho /\ B2R (fst f') * prodv uf rc (snd f') rho = B2R (fst f) * prodv uf rc (snd f) rho * prodv uf rc ts r.
  Proof.
    intros Hi Hr HP. induction HP as [|[a b] ts Hab HP IH]; intros Hs Hd D f f' t E Ht Df; cbn [mul_loop] in E.
    - apply ret_val in E. destruct E as [-> _]. split; auto. simpl. ring.
    - destruct Hab as [Ha Hb]. cbn [fst snd] in Ha, Hb.
      cbn [fold_right] in Hs. destruct Hs as [[Sa Sb] Ss]. cbn [flat_map] in Hd. apply idefs_app in Hd. destruct Hd as [Iab Is].
      apply idefs_app in Iab. destruct Iab as [Ia Ib].
      destruct D as [(Da & Db & P) Ds].
      inb E. inb H0. inb H2. inb H3. apply Forall_app in Ht. destruct Ht as [O1 Ht]. apply Forall_app in Ht. destruct Ht as [O2 Ht].
      apply Forall_app in Ht. destruct Ht as [O3 Ht]. apply Forall_app in Ht. destruct Ht as [O4 O5].
      destruct (Ha bs sE' sF' rho r Hi Hr Sa Ia Da _ _ H O1) as [D1 V1].
      destruct (Hb bs sE' sF' rho r Hi Hr Sb Ib Db _ _ H1 O2) as [D2 V2].
      rewrite <- V1, <- V2 in P.
      destruct (mk_pow_ev uf rc fpow a0 a1 rho D1 D2 P _ _ H0 O3) as [D3 V3].
      destruct f as [c m]. destruct a3 as [c' m'].
      destruct (mul_expr_ev uf rc _ _ (mk_add_ev uf rc fpow n) (mk_mul_ev uf rc fpow n) _ _ _ _ _ _ _ H2 O4 D3 Df) as [D4 V4].
      destruct (IH Ss Is Ds _ _ _ H4 O5 D4) as [D5 V5]. split; auto. rewrite V5. cbn [fst snd]. rewrite V4.
      rewrite V3. rewrite V1, V2. cbn [prodv fold_right]. fold (prodv uf rc ts r). ring.
  Qed.

  Lemma and_loop_ev bs sE' sF' rho r fs : inv bs sE' sF' -> rel bs rho r -> Forall PF fs ->
    fold_right (fun g acc => sokF sE sF bs g /\ acc) True fs -> idefs bs (flat_map fvF fs) ->
    fold_right (fun g acc => dF g r /\ acc) True fs ->
    forall acc ch res t, and_loop (substF fpow n sE' sF') fs acc ch = (Val res, t) -> ok t -> dF acc rho ->
    match res with
    | Some g => dF g rho /\ (hd g rho <-> hd acc rho /\ forall f, In f fs -> hd f r)
    | None => ch = false /\ (forall f, In f fs -> dF f rho /\ (hd f rho <-> hd f r))
    end.
  Proof.
    intros Hi Hr HP. induction HP as [|f fs Hf HP IH]; intros Hs Hd D acc ch res t E Ht Da; cbn [and_loop] in E.
    - apply ret_val in E. destruct E as [-> _]. destruct ch.
      + split; auto. split; [intros; split; auto; intros f []|tauto].
      + split; auto. intros f [].
    - cbn [fold_right] in Hs, D. destruct Hs as [Sf Ss], D as [Df Ds]. cbn [flat_map] in Hd. apply idefs_app in Hd. destruct Hd as [If Is].
      inb E. apply Forall_app in Ht. destruct Ht as [O1 O2].
      destruct (Hf bs sE' sF' rho r Hi Hr Sf If Df _ _ H O1) as [D1 V1].
      set (g := if formula_eqb f a then f else a) in *.
      assert (Eg : g = a). { unfold g. destruct (formula_eqb f a) eqn:E; auto. now apply formula_eqb_eq in E. }
      clearbody g. subst g. cbv zeta in H0.
      assert (DA : dF (mk_and acc a) rho) by (apply (c_and _ (closed_def M stdD rho)); auto).
      destruct (is_false (mk_and acc a)) eqn:Ef.
      + apply ret_val in H0. destruct H0 as [-> _]. split; auto.
        assert (X : mk_and acc a = FFalse) by (destruct (mk_and acc a); try discriminate; reflexivity).
        pose proof (mk_and_holds M acc a rho) as Hm. rewrite X in Hm. cbn [holds] in Hm.
        rewrite X. cbn [holds]. split; [tauto|]. intros [A B]. apply Hm. split; auto. apply V1. apply B. now left.
      + specialize (IH Ss Is Ds _ _ _ _ H0 O2 DA). destruct res as [g|].
        * destruct IH as [Dg Hg]. split; auto. rewrite Hg, mk_and_holds, V1.
          split; [intros [[A B] C]; split; auto; intros h [<-|Hh]; auto|intros [A B]; split; [split; [auto|apply B; now left]|intros; apply B; now right]].
        * destruct IH as [Hc Hall]. apply orb_false_iff in Hc. destruct Hc as [-> Hc]. apply negb_false_iff in Hc.
          apply formula_eqb_eq in Hc. subst a. split; auto. intros h [<-|Hh]; auto.
  Qed.
  Lemma or_loop_ev bs sE' sF' rho r fs : inv bs sE' sF' -> rel bs rho r -> Forall PF fs ->
    fold_right (fun g acc => sokF sE sF bs g /\ acc) True fs -> idefs bs (flat_map fvF fs) ->
    fold_right (fun g acc => dF g r /\ acc) True fs ->
    forall acc ch res t, or_loop (substF fpow n sE' sF') fs acc ch = (Val res, t) -> ok t -> dF acc rho ->
    match res with
    | Some g => dF g rho /\ (hd g rho <-> hd acc rho \/ exists f, In f fs /\ hd f r)
    | None => ch = false /\ (forall f, In f fs -> dF f rho /\ (hd f rho <-> hd f r))
    end.
  Proof.
    intros Hi Hr HP. induction HP as [|f fs Hf HP IH]; intros Hs Hd D acc ch res t E Ht Da; cbn [or_loop] in E.
    - apply ret_val in E. destruct E as [-> _]. destruct ch.
      + split; auto. split; [tauto|intros [A|(f & [] & _)]; auto].
      + split; auto. intros f [].
    - cbn [fold_right] in Hs, D. destruct Hs as [Sf Ss], D as [Df Ds]. cbn [flat_map] in Hd. apply idefs_app in Hd. destruct Hd as [If Is].
      inb E. apply Forall_app in Ht. destruct Ht as [O1 O2].
      destruct (Hf bs sE' sF' rho r Hi Hr Sf If Df _ _ H O1) as [D1 V1].
      set (g := if formula_eqb f a then f else a) in *.
      assert (Eg : g = a). { unfold g. destruct (formula_eqb f a) eqn:E; auto. now apply formula_eqb_eq in E. }
      clearbody g. subst g. cbv zeta in H0.
      assert (DA : dF (mk_or acc a) rho) by (apply (c_or _ (closed_def M stdD rho)); auto).
      destruct (is_true (mk_or acc a)) eqn:Ef.
      + apply ret_val in H0. destruct H0 as [-> _]. split; auto.
        assert (X : mk_or acc a = FTrue) by (destruct (mk_or acc a); try discriminate; reflexivity).
        pose proof (mk_or_holds M acc a rho) as Hm. rewrite X in Hm. cbn [holds] in Hm.
        rewrite X. cbn [holds]. split; [|tauto]. intros _. destruct (proj1 Hm I) as [A|A]; auto. right. exists f. split; [now left|now apply V1].
      + specialize (IH Ss Is Ds _ _ _ _ H0 O2 DA). destruct res as [g|].
        * destruct IH as [Dg Hg]. split; auto. rewrite Hg, mk_or_holds, V1.
          split; [intros [[A|B]|(h & A & B)]; auto; right; [exists f; split; auto; now left|exists h; split; auto; now right]
                 |intros [A|(h & [<-|A] & B)]; auto; right; exists h; auto].
        * destruct IH as [Hc Hall]. apply orb_false_iff in Hc. destruct Hc as [-> Hc]. apply negb_false_iff in Hc.
          apply formula_eqb_eq in Hc. subst a. split; auto. intros h [<-|Hh]; auto.
  Qed.

  Lemma ev_ite f a b r : ev (EIte f a b) r = if excluded_middle_informative (hd f r) then ev a r else ev b r.
  Proof. reflexivity. Qed.
  Lemma mem_false v bs : mem_var v bs = false -> ~ In v bs.
  Proof. intros H X. apply mem_var_In in X. congruence. Qed.

  Lemma subst_ev : (forall e, PE e) /\ (forall f, PF f).
  Proof.
    apply expr_formula_ind2.
    - intros c bs sE' sF' rho r Hi Hr Hs Hd D. apply gets_ret; auto.
    - intros a b u bs sE' sF' rho r Hi Hr Hs Hd D. apply gets_ret; auto.
    - (* variable *)
      intros v bs sE' sF' rho r [Hi1 _] [Ho Hr] [Hty Hcap] Hd D. cbn [substE evalE]. rewrite Hi1, Hr by auto.
      destruct (mem_var v bs) eqn:Em; [apply gets_ret; [exact I|reflexivity]|].
      apply mem_false in Em. unfold upd, updated. specialize (Hcap Em).
      specialize (Hd v (or_introl eq_refl) Em). unfold idef in Hd. unfold ivars in Hcap.
      assert (Ee : imgE sE sF v = image v sE) by (unfold imgE; destruct (vty v); auto; congruence).
      assert (Ef : imgF sE sF v = None) by (unfold imgF; destruct (vty v); auto; congruence).
      rewrite Ee, Ef in *. rewrite slookup_image. destruct (image v sE) as [e|] eqn:Ei.
      + assert (A : forall w, In w (fvE e) -> rho0 w = rho w).
        { intros w Hw. symmetry. apply Ho. intros X. exact (Hcap w X Hw). }
        apply gets_ret; [apply (proj1 (def_agree M stdD) e rho0 rho A Hd)|]. symmetry. apply evalE_agree, A.
      + apply gets_ret; [exact I|]. cbn [evalE]. apply Ho, Em.
    - (* sum *)
      intros c ts HP bs sE' sF' rho r Hi Hr Hs Hd D. cbn [substE]. apply gets_bind. intros f t E Ht.
      destruct (add_loop_ev bs sE' sF' rho r ts Hi Hr HP Hs Hd D _ _ _ E Ht I) as [D1 V1].
      eapply gets_eq; [|apply add_get_ev; [apply mk_mul_ev|exact D1]]. rewrite V1. cbn [fst snd]. rewrite ev_add. simpl. ring.
    - (* product *)
      intros c ts HP bs sE' sF' rho r Hi Hr Hs Hd D. cbn [substE]. apply gets_bind. intros f t E Ht.
      destruct (mul_loop_ev bs sE' sF' rho r ts Hi Hr HP Hs Hd D _ _ _ E Ht I) as [D1 V1].
      eapply gets_eq; [|apply mul_get_ev; exact D1]. rewrite V1. cbn [fst snd]. rewrite ev_mul. simpl. ring.
    - (* unary *)
      intros o a IH bs sE' sF' rho r Hi Hr Hs Hd D. cbn [substE]. apply gets_bind. intros a' t E Ht. destruct D as [Da U].
      destruct (IH bs sE' sF' rho r Hi Hr Hs Hd Da _ _ E Ht) as [D1 V1].
      destruct (expr_eqb a a') eqn:Ee.
      + apply expr_eqb_eq in Ee. subst a'. apply gets_ret; [|cbn [evalE]; now rewrite V1]. cbn [defE]. rewrite V1. auto.
      + eapply gets_eq; [|apply mk_un_ev; auto]; [|rewrite V1; exact U]. cbn [evalE]. rewrite V1. reflexivity.
    - (* binary *)
      intros o a b IHa IHb bs sE' sF' rho r Hi Hr [Sa Sb] Hd D. cbn [substE]. cbn [fvE] in Hd. apply idefs_app in Hd. destruct Hd as [Ia Ib].
      apply gets_bind. intros a' t E Ht. apply gets_bind. intros b' t' E' Ht'. destruct D as (Da & Db & U).
      destruct (IHa bs sE' sF' rho r Hi Hr Sa Ia Da _ _ E Ht) as [D1 V1].
      destruct (IHb bs sE' sF' rho r Hi Hr Sb Ib Db _ _ E' Ht') as [D2 V2].
      destruct (expr_eqb a a' && expr_eqb b b') eqn:Ee.
      + apply andb_true_iff in Ee. destruct Ee as [E1 E2]. apply expr_eqb_eq in E1, E2. subst a' b'.
        apply gets_ret; [|cbn [evalE]; now rewrite V1, V2]. cbn [defE]. rewrite V1, V2. auto.
      + eapply gets_eq; [|apply mk_bin_ev; auto]; [|rewrite V1, V2; exact U]. cbn [evalE]. rewrite V1, V2. reflexivity.
    - (* if-then-else *)
      intros f a b IHf IHa IHb bs sE' sF' rho r Hi Hr (Sf & Sa & Sb) Hd D. cbn [substE]. cbn [fvE] in Hd.
      apply idefs_app in Hd. destruct Hd as [If Hd]. apply idefs_app in Hd. destruct Hd as [Ia Ib].
      apply gets_bind. intros f' t0 E0 Ht0. apply gets_bind. intros a' t E Ht. apply gets_bind. intros b' t' E' Ht'. destruct D as (D0 & Da & Db).
      destruct (IHf bs sE' sF' rho r Hi Hr Sf If D0 _ _ E0 Ht0) as [Df Vf].
      destruct (IHa bs sE' sF' rho r Hi Hr Sa Ia Da _ _ E Ht) as [D1 V1].
      destruct (IHb bs sE' sF' rho r Hi Hr Sb Ib Db _ _ E' Ht') as [D2 V2].
      destruct (formula_eqb f f' && expr_eqb a a' && expr_eqb b b') eqn:Ee.
      + apply andb_true_iff in Ee. destruct Ee as [Ee E2]. apply andb_true_iff in Ee. destruct Ee as [Ef E1].
        apply expr_eqb_eq in E1, E2. apply formula_eqb_eq in Ef. subst f' a' b'.
        apply gets_ret; [cbn [defE]; auto|]. rewrite !ev_ite, V1, V2.
        destruct (excluded_middle_informative (hd f rho)), (excluded_middle_informative (hd f r)); try reflexivity; exfalso; tauto.
      + destruct (mk_ite_ev uf rc f' a' b' rho Df D1 D2) as (Di & Ht1 & Ht2).
        apply gets_ret; auto. rewrite ev_ite. destruct (excluded_middle_informative (hd f r)) as [K|K].
        * rewrite Ht1 by tauto. auto.
        * rewrite Ht2 by tauto. auto.
    - (* uninterpreted function *)
      intros m vs bs sE' sF' rho r Hi Hr Hs Hd D. cbn [substE sokE] in *. subst vs. apply gets_ret; [exact I|reflexivity].
    - intros bs sE' sF' rho r Hi Hr Hs Hd D g t E Ht. apply ret_val in E. destruct E as [-> _]. split; [exact I|apply iff_refl].
    - intros bs sE' sF' rho r Hi Hr Hs Hd D g t E Ht. apply ret_val in E. destruct E as [-> _]. split; [exact I|apply iff_refl].
    - (* Boolean variable *)
      intros v bs sE' sF' rho r [_ Hi2] [Ho Hr] [Hty Hcap] Hd D g t E Ht. cbn [substF] in E. apply ret_val in E. destruct E as [-> _].
      rewrite Hi2 by auto. cbn [holds]. rewrite Hr.
      destruct (mem_var v bs) eqn:Em; [split; [exact I|apply iff_refl]|].
      apply mem_false in Em. unfold upd, updated. specialize (Hcap Em).
      specialize (Hd v (or_introl eq_refl) Em). unfold idef in Hd. unfold ivars in Hcap.
      assert (Ee : imgE sE sF v = None) by (unfold imgE; now rewrite Hty).
      assert (Ef : imgF sE sF v = image v sF) by (unfold imgF; now rewrite Hty).
      rewrite Ee, Ef in *. rewrite slookup_image. destruct (image v sF) as [e|] eqn:Ei.
      + assert (A : forall w, In w (fvF e) -> rho0 w = rho w).
        { intros w Hw. symmetry. apply Ho. intros X. exact (Hcap w X Hw). }
        split; [apply (proj2 (def_agree M stdD) e rho0 rho A Hd)|]. rewrite <- (holds_agree M e rho0 rho A).
        destruct (excluded_middle_informative (hd e rho0)); split; auto; try tauto; intros X; exfalso; lra.
      + split; [exact I|]. cbn [holds]. rewrite (Ho v Em). apply iff_refl.
    - (* relation *)
      intros o a b IHa IHb bs sE' sF' rho r Hi Hr [Sa Sb] Hd D g t E Ht. cbn [substF] in E. cbn [fvF] in Hd. apply idefs_app in Hd. destruct Hd as [Ia Ib].
      inb E. inb H0. apply Forall_app in Ht. destruct Ht as [O1 Ht]. apply Forall_app in Ht. destruct Ht as [O2 O3].
      destruct D as (Da & Db).
      destruct (IHa bs sE' sF' rho r Hi Hr Sa Ia Da _ _ H O1) as [D1 V1].
      destruct (IHb bs sE' sF' rho r Hi Hr Sb Ib Db _ _ H1 O2) as [D2 V2].
      change (hd (FRel o a b) r) with (relR o (ev a r) (ev b r)). rewrite <- V1, <- V2.
      destruct (expr_eqb a a0 && expr_eqb b a1) eqn:Ee.
      + apply andb_true_iff in Ee. destruct Ee as [E1 E2]. apply expr_eqb_eq in E1, E2. subst a0 a1.
        apply ret_val in H2. destruct H2 as [-> _]. split; [cbn [defF]; auto|apply iff_refl].
      + apply (mk_relm_ev uf rc fpow n o a0 a1 rho g _ H2 O3 D1 D2).
    - (* conjunction *)
      intros fs HP bs sE' sF' rho r Hi Hr Hs Hd D g t E Ht. cbn [substF] in E. inb E.
      apply ret_val in H0. destruct H0 as [-> ->]. rewrite app_nil_r in Ht.
      pose proof (and_loop_ev bs sE' sF' rho r fs Hi Hr HP Hs Hd D _ _ _ _ H Ht I) as K.
      destruct a as [g|].
      + destruct K as [K1 K2]. split; auto. rewrite K2, holds_and_in. cbn [holds]. tauto.
      + destruct K as [_ K]. split; [cbn [defF]; apply fold_and_all; intros g Hg; apply K; auto|].
        rewrite !holds_and_in. split; intros X g Hg; apply K; auto.
    - (* disjunction *)
      intros fs HP bs sE' sF' rho r Hi Hr Hs Hd D g t E Ht. cbn [substF] in E. inb E.
      apply ret_val in H0. destruct H0 as [-> ->]. rewrite app_nil_r in Ht.
      pose proof (or_loop_ev bs sE' sF' rho r fs Hi Hr HP Hs Hd D _ _ _ _ H Ht I) as K.
      destruct a as [g|].
      + destruct K as [K1 K2]. split; auto. rewrite K2, holds_or_in. cbn [holds]. tauto.
      + destruct K as [_ K]. split; [cbn [defF]; apply fold_and_all; intros g Hg; apply K; auto|].
        rewrite !holds_or_in. split; intros (g & Hg & X); exists g; split; auto; apply K; auto.
    - (* negation *)
      intros f IH bs sE' sF' rho r Hi Hr Hs Hd D g t E Ht. cbn [substF] in E. inb E. apply Forall_app in Ht. destruct Ht as [O1 O2].
      destruct (IH bs sE' sF' rho r Hi Hr Hs Hd D _ _ H O1) as [D1 V1].
      destruct (formula_eqb f a) eqn:Ee; apply ret_val in H0; destruct H0 as [-> _].
      + apply formula_eqb_eq in Ee. subst a. split; auto. cbn [holds]. tauto.
      + split; [apply (c_not _ (closed_def M stdD rho)); auto|]. rewrite mk_not_holds. cbn [holds]. tauto.
    - (* quantifier *)
      intros vs f IH bs sE' sF' rho r Hi Hr Hs Hd D g t E Ht. cbn [substF] in E. inb E. apply Forall_app in Ht. destruct Ht as [O1 O2].
      destruct Hr as [Ho Hr].
      assert (Kapp : forall v, mem_var v (vs ++ bs) = mem_var v vs || mem_var v bs) by (intros v; apply existsb_app).
      assert (Id : idefs (vs ++ bs) (fvF f)).
      { intros v Hv Hn. apply Hd; [|intros X; apply Hn, in_or_app; auto]. cbn [fvF]. apply filter_In. split; auto.
        apply negb_true_iff, not_true_iff_false. intros X. apply mem_var_In in X. apply Hn, in_or_app; auto. }
      assert (Step : forall rho', agree_off vs rho rho' -> (forall v, In v vs -> typed_val (vty v) (rho' v)) ->
         forall r', (forall v, r' v = if mem_var v (vs ++ bs) then rho' v else upd v) ->
         agree_off vs r r' /\ dF a rho' /\ (hd a rho' <-> hd f r')).
      { intros rho' Hoff Hty r' Hr'.
        assert (A : agree_off vs r r').
        { intros v Hv. rewrite Hr', Hr, Kapp. destruct (mem_var v vs) eqn:Ev; [apply mem_var_In in Ev; tauto|].
          cbn [orb]. destruct (mem_var v bs); auto. }
        split; auto. apply (IH (vs ++ bs) _ _ rho' r' (inv_erase bs sE' sF' vs Hi)) with (t := t0); auto.
        - split; auto. intros v Hv. rewrite Hoff; [apply Ho|]; intros X; apply Hv, in_or_app; auto.
        - apply D; auto. intros v Hv. rewrite Hr', Kapp, (proj2 (mem_var_In v vs) Hv). cbn [orb]. auto. }
      assert (Q : dF (FForall vs a) rho /\ (hd (FForall vs a) rho <-> hd (FForall vs f) r)).
      { split; [|split].
        - cbn [defF]. intros rho' Hoff Hty. destruct (Step rho' Hoff Hty _ (fun v => eq_refl)) as (_ & X & _). exact X.
        - cbn [holds]. intros X s Hs1 Hs2.
          set (rho' := fun v => if mem_var v vs then s v else rho v).
          assert (H1 : agree_off vs rho rho').
          { intros v Hv. unfold rho'. destruct (mem_var v vs) eqn:Ev; auto. apply mem_var_In in Ev. tauto. }
          assert (H2 : forall v, In v vs -> typed_val (vty v) (rho' v)).
          { intros v Hv. unfold rho'. rewrite (proj2 (mem_var_In v vs) Hv). auto. }
          destruct (Step rho' H1 H2 _ (fun v => eq_refl)) as (_ & _ & Y).
          apply (X rho' H1) in H2. apply Y in H2. revert H2. apply holds_agree. intros v _. cbn beta.
          rewrite Kapp. unfold rho'. destruct (mem_var v vs) eqn:Ev; cbn [orb]; auto.
          rewrite Hs1 by (now apply mem_false). rewrite Hr. reflexivity.
        - cbn [holds]. intros X rho' Hoff Hty. destruct (Step rho' Hoff Hty _ (fun v => eq_refl)) as (A & _ & Y).
          apply Y, X; auto. intros v Hv. cbn beta. rewrite Kapp, (proj2 (mem_var_In v vs) Hv). cbn [orb]. auto. }
      destruct (formula_eqb f a) eqn:Ee; apply ret_val in H0; destruct H0 as [-> _].
      + apply formula_eqb_eq in Ee. subst a. exact Q.
      + rewrite mk_forall_holds. destruct Q as [Q1 Q2]. split; auto.
        apply mk_forall_defF; auto.
  Qed.
End Subst.
