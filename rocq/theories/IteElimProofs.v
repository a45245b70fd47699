(** Elimination of if-then-else terms preserves satisfiability. *)
From Coq Require Import ZArith Reals Lra Lia List Bool Classical.
From Flocq Require Import Core.Core IEEE754.BinarySingleNaN.
From Verif Require Import Dbl DblProofs Syntax Sem SemProofs FormulaCons FormulaConsProofs SpecForm Nnf NnfProofs PredAbs IEval Icp IcpProofs Filter Theory ExplainProofs IteElim SpecIte Regular RegularProofs.
Import ListNotations.

(** ** Properties of formulas that the constructors preserve *)
Record closedP (P : formula -> Prop) : Prop := {
  cT : P FTrue; cF : P FFalse;
  cA : forall gs, P (FAnd gs) <-> (forall g, In g gs -> P g);
  cO : forall gs, P (FOr gs) <-> (forall g, In g gs -> P g);
  cN : forall g, P (FNot g) <-> P g }.

Section Closed.
  Variable P : formula -> Prop.
  Hypothesis C : closedP P.
  Lemma c_and f g : P f -> P g -> P (mk_and f g).
  Proof. apply mk_and_pres; [apply (cF P C)|intros gs H; apply (cA P C); auto|intros gs H; apply (cA P C); auto]. Qed.
  Lemma c_or f g : P f -> P g -> P (mk_or f g).
  Proof. apply mk_or_pres; [apply (cT P C)|intros gs H; apply (cO P C); auto|intros gs H; apply (cO P C); auto]. Qed.
  Lemma c_not f : P (mk_not f) <-> P f.
  Proof. destruct f; cbn [mk_not]; try (apply (cN P C)); try (split; intros _; [apply (cT P C) || apply (cF P C)|apply (cT P C) || apply (cF P C)]). symmetry. apply (cN P C). Qed.
  Lemma c_conj fs : (forall g, In g fs -> P g) -> P (mk_conj fs).
  Proof. apply mk_conj_pres; [apply (cT P C)|apply (cF P C)|intros gs H; apply (cA P C); auto|intros gs H; apply (cA P C); auto]. Qed.
  Lemma c_disj fs : (forall g, In g fs -> P g) -> P (mk_disj fs).
  Proof. apply mk_disj_pres; [apply (cT P C)|apply (cF P C)|intros gs H; apply (cO P C); auto|intros gs H; apply (cO P C); auto]. Qed.
  Lemma c_vec fs : forall a, P a -> (forall g, In g fs -> P g) -> P (fold_left mk_and fs a).
  Proof. induction fs as [|g fs IH]; intros a Ha H; cbn [fold_left]; auto. apply IH; [apply c_and; auto; apply H; left; auto|intros; apply H; right; auto]. Qed.
  Lemma c_nnf fold f : P f -> forall pol, P (nnf fold false f pol).
  Proof.
    induction f as [| |v|o a b|fs IH|fs IH|f IH|vs f IH] using formula_ind'; intros H pol; cbn [nnf];
      try (destruct pol; auto using (cT P C), (cF P C); apply c_not; auto; fail).
    - assert (K : forall g, In g (fset (map (fun g => nnf fold false g pol) fs)) -> P g).
      { intros g Hg. apply fset_In, in_map_iff in Hg. destruct Hg as (x & <- & Hx). rewrite Forall_forall in IH. apply IH; auto. apply (proj1 (cA P C fs)); auto. }
      destruct pol; [apply c_conj|apply c_disj]; auto.
    - assert (K : forall g, In g (fset (map (fun g => nnf fold false g pol) fs)) -> P g).
      { intros g Hg. apply fset_In, in_map_iff in Hg. destruct Hg as (x & <- & Hx). rewrite Forall_forall in IH. apply IH; auto. apply (proj1 (cO P C fs)); auto. }
      destruct pol; [apply c_disj|apply c_conj]; auto.
    - apply IH. apply (cN P C); auto.
  Qed.
  Lemma c_result f f' s : P f' -> (forall g, In g (it_added s) -> P g) -> P (it_result f f' s).
  Proof.
    intros H A. unfold it_result. destruct (formula_eqb f f' && _) eqn:E.
    - apply andb_true_iff in E. destruct E as [E _]. apply formula_eqb_eq in E. subst; auto.
    - apply c_and; auto. apply c_vec; auto. apply (cT P C).
  Qed.
End Closed.

Lemma closed_bnd n : closedP (fun f => bnd n (fvF f)).
Proof.
  split; try (intros v []); try (intros gs; cbn [fvF]; split;
    [intros H g Hg v Hv; apply H, in_flat_map; eauto|intros H v Hv; apply in_flat_map in Hv; destruct Hv as (g & A & B); apply (H g A v B)]).
  reflexivity.
Qed.
Lemma closed_ite : closedP (fun f => hasIteF f = false).
Proof.
  split; try reflexivity; intros gs; cbn [hasIteF]; (split;
    [intros H g Hg; destruct (hasIteF g) eqn:E; auto; rewrite <- H; symmetry; apply existsb_exists; eauto
    |intros H; apply not_true_iff_false; rewrite existsb_exists; intros (g & A & B); rewrite (H g A) in B; discriminate]).
Qed.
Lemma fold_and_all {A} (P : A -> Prop) l : fold_right (fun g acc => P g /\ acc) True l <-> (forall g, In g l -> P g).
Proof.
  induction l as [|x l IH]; cbn [fold_right]; [split; [intros _ g []|auto]|]. rewrite IH.
  split; [intros [H1 H2] g [<-|Hg]; auto|intros H; split; [apply H; left; auto|intros; apply H; right; auto]].
Qed.
Lemma closed_def M D rho : closedP (fun f => defF M D f rho).
Proof. split; try exact I; try (intros gs; cbn [defF]; apply fold_and_all). reflexivity. Qed.
Lemma closed_reg M D G rho : closedP (fun f => regF M D G f rho).
Proof. split; try exact I; try (intros gs; cbn [regF]; apply fold_and_all). reflexivity. Qed.
Lemma closed_unf fold : closedP (unfolded fold).
Proof.
  split; try constructor; try (intros H; inversion H; auto; fail); try (intros H; constructor; auto).
Qed.

Lemma nnf_fold_irrel fold fold' f : forall pol, nnf fold false f pol = nnf fold' false f pol.
Proof.
  induction f as [| |v|o a b|fs IH|fs IH|f IH|vs f IH] using formula_ind'; intros pol; cbn [nnf]; auto.
  - rewrite (map_ext_in (fun g => nnf fold false g pol) (fun g => nnf fold' false g pol)); auto. rewrite Forall_forall in IH. auto.
  - rewrite (map_ext_in (fun g => nnf fold false g pol) (fun g => nnf fold' false g pol)); auto. rewrite Forall_forall in IH. auto.
Qed.
Lemma unf_none f : unfolded (fun _ _ => None) f.
Proof.
  induction f as [| |v|o a b|fs IH|fs IH|f IH|vs f IH] using formula_ind'; constructor; auto; rewrite Forall_forall in IH; auto.
Qed.
Lemma nnf_false_holds M fold f pol rho : holds M (nnf fold false f pol) rho <-> (if pol then holds M f rho else ~ holds M f rho).
Proof. rewrite (nnf_fold_irrel fold (fun _ _ => None)). apply nnf_holds. apply unf_none. Qed.
Lemma vec_holds M fs rho : forall a, holds M (fold_left mk_and fs a) rho <-> holds M a rho /\ (forall g, In g fs -> holds M g rho).
Proof.
  induction fs as [|g fs IH]; intros a; cbn [fold_left]; [split; [intros; split; auto; intros g []|tauto]|].
  rewrite IH, mk_and_holds. split; [intros [[A B] C]; split; auto; intros h [<-|H]; auto|intros [A B]; split; [split; auto; apply B; left; auto|intros; apply B; right; auto]].
Qed.
Lemma result_holds M f f' s rho : holds M (it_result f f' s) rho <-> holds M f' rho /\ (forall g, In g (it_added s) -> holds M g rho).
Proof.
  unfold it_result. destruct (formula_eqb f f' && _) eqn:E.
  - apply andb_true_iff in E. destruct E as [E F]. apply formula_eqb_eq in E. subst. destruct (it_added s); [|discriminate]. split; [intros; split; auto; intros g []|tauto].
  - rewrite mk_and_holds. unfold mk_conj_vec. rewrite vec_holds. cbn [holds]. tauto.
Qed.

Definition eqon (vs : list var) (r r' : env) : Prop := forall v, In v vs -> r v = r' v.
Lemma eqon_sym vs r r' : eqon vs r r' -> eqon vs r' r.
Proof. intros H v Hv. symmetry; auto. Qed.
Lemma eqon_incl vs ws r r' : incl vs ws -> eqon ws r r' -> eqon vs r r'.
Proof. intros I H v Hv. auto. Qed.

Section Main.
  Variables (M : interp) (D : pdom) (fold : expr -> expr -> option dbl) (K : eops).
  Variable Gr : relop -> expr -> expr -> R -> R -> Prop.
  Hypothesis G_eq : forall a b x y, Gr REq a b x y.
  Hypothesis G_sub : forall o a b a' b' x y, incl (consts_of a') (consts_of a) -> incl (consts_of b') (consts_of b) -> Gr o a b x y -> Gr o a' b' x y.
  Notation ev := (evalE M). Notation hd := (holds M). Notation dE := (regE M D Gr). Notation dF := (regF M D Gr).

  Lemma mk_forall_def vs f rho : dF (FForall vs f) rho -> dF (mk_forall vs f) rho.
  Proof.
    intros H. unfold mk_forall. cbn [regF] in *. intros rho' Hoff Hty.
    apply (relax_fv M D vs); [intros v Hv Hin; apply filter_In; split; [exact Hin|apply mem_var_In; exact Hv]|].
    apply (proj2 (reg_agree M D (relax vs Gr)) f (fun v => if in_dec var_eq_dec v vs then
                                (if in_dec var_eq_dec v (fvF f) then rho' v else 0%R) else rho' v)).
    - intros v Hv. destruct (in_dec var_eq_dec v vs); auto.
      destruct (in_dec var_eq_dec v (fvF f)); tauto.
    - apply H.
      + intros v Hv. destruct (in_dec var_eq_dec v vs); [tauto|].
        apply Hoff. intro X. apply filter_In in X. tauto.
      + intros v Hv. destruct (in_dec var_eq_dec v vs); [|tauto].
        destruct (in_dec var_eq_dec v (fvF f)); [|apply typed_val_inhabited].
        apply Hty, filter_In. split; auto. now apply mem_var_In.
  Qed.

  Record item := { ov : list var; nw : list var; same : env -> env -> Prop; dor : env -> Prop; dnw : env -> Prop; qk : Prop; ni : Prop; nf : Prop }.
  Definition item_ok (I : item) : Prop :=
    (forall r1 r2 r1' r2', eqon (ov I) r1 r1' -> eqon (nw I) r2 r2' -> same I r1 r2 -> same I r1' r2') /\
    (forall r r', eqon (ov I) r r' -> dor I r -> dor I r') /\
    (forall r r', eqon (nw I) r r' -> dnw I r -> dnw I r').
  Definition itE (e e' : expr) : item :=
    {| ov := fvE e; nw := fvE e'; same := fun r r' => ev e' r' = ev e r; dor := dE e; dnw := dE e'; qk := qplainE e; ni := hasIteE e = false; nf := hasIteE e' = false /\ incl (consts_of e') (consts_of e) |}.
  Definition itF (f f' : formula) : item :=
    {| ov := fvF f; nw := fvF f'; same := fun r r' => hd f' r' <-> hd f r; dor := dF f; dnw := dF f'; qk := qplainF f; ni := hasIteF f = false; nf := hasIteF f' = false |}.
  Definition itSeq (I J : item) : item :=
    {| ov := ov I ++ ov J; nw := nw I ++ nw J; same := fun r r' => same I r r' /\ same J r r'; dor := fun r => dor I r /\ dor J r; dnw := fun r => dnw I r /\ dnw J r; qk := qk I /\ qk J; ni := ni I /\ ni J; nf := nf I /\ nf J |}.

  Lemma itE_ok e e' : item_ok (itE e e').
  Proof.
    split; [|split]; cbn [ov nw same dor dnw itE].
    - intros r1 r2 r1' r2' A B H. rewrite <- (evalE_agree M e' r2 r2' B), <- (evalE_agree M e r1 r1' A). exact H.
    - intros r r' A. apply (proj1 (reg_agree M D Gr)). exact A.
    - intros r r' A. apply (proj1 (reg_agree M D Gr)). exact A.
  Qed.
  Lemma itF_ok f f' : item_ok (itF f f').
  Proof.
    split; [|split]; cbn [ov nw same dor dnw itF].
    - intros r1 r2 r1' r2' A B H. rewrite <- (holds_agree M f' r2 r2' B), <- (holds_agree M f r1 r1' A). exact H.
    - intros r r' A. apply (proj2 (reg_agree M D Gr)). exact A.
    - intros r r' A. apply (proj2 (reg_agree M D Gr)). exact A.
  Qed.

  Lemma seq_ok I J : item_ok I -> item_ok J -> item_ok (itSeq I J).
  Proof.
    intros (I1 & I2 & I3) (J1 & J2 & J3). split; [|split]; cbn [ov nw same dor dnw itSeq].
    - intros r1 r2 r1' r2' A B [X Y]. split; [apply (I1 r1 r2)|apply (J1 r1 r2)]; auto; intros v Hv; (apply A || apply B); apply in_or_app; auto.
    - intros r r' A [X Y]. split; [apply (I2 r)|apply (J2 r)]; auto; intros v Hv; apply A; apply in_or_app; auto.
    - intros r r' A [X Y]. split; [apply (I3 r)|apply (J3 r)]; auto; intros v Hv; apply A; apply in_or_app; auto.
  Qed.

  Definition okst (s : it_state) : Prop :=
    (forall n, In n (it_nodes s) -> node_exact M D K n) /\ (forall a b, In (a, b) (it_cmps s) -> cmp_exact M fold a b).
  Definition logs (s s' : it_state) : Prop := incl (it_nodes s) (it_nodes s') /\ incl (it_cmps s) (it_cmps s').
  Lemma logs_refl s : logs s s. Proof. split; apply incl_refl. Qed.
  Lemma logs_trans a b c : logs a b -> logs b c -> logs a c.
  Proof. intros [A B] [A' B']. split; eapply incl_tran; eauto. Qed.
  Lemma okst_logs s s' : logs s s' -> okst s' -> okst s.
  Proof. intros [A B] [X Y]. split; intros; [apply X|apply Y]; auto. Qed.

  Definition fresh_vars (n n' : nat) (nv : list var) : Prop := forall v, In v nv -> vty v = CONTINUOUS /\ n <= vid v < n'.
  Definition ext (s s' : it_state) (nv : list var) (na : list formula) : Prop :=
    it_next s <= it_next s' /\ it_vars s' = it_vars s ++ nv /\ it_added s' = it_added s ++ na /\
    fresh_vars (it_next s) (it_next s') nv /\
    (forall f, In f na -> bnd (it_next s') (fvF f) /\ hasIteF f = false /\ unfolded fold f).
  Definition allh (na : list formula) (r : env) : Prop := forall f, In f na -> hd f r.
  Definition alld (na : list formula) (r : env) : Prop := forall f, In f na -> dF f r.

  Definition Core (g : formula) (s s' : it_state) (I : item) (nv : list var) (na : list formula) : Prop :=
    ext s s' nv na /\ bnd (it_next s') (nw I) /\ nf I /\
    (forall rho, hd g rho -> allh na rho -> same I rho rho) /\
    (forall rho, exists rho', agree_off nv rho rho' /\ same I rho rho' /\ allh na rho' /\
        (qk I -> dor I rho -> dF g rho -> dnw I rho' /\ alld na rho')) /\
    (ni I -> nv = [] /\ na = []).
  Definition Tr (g : formula) (s s' : it_state) (I : item) : Prop :=
    logs s s' /\ (okst s' -> exists nv na, Core g s s' I nv na).

  Lemma fresh_eqon nv vs n n' r r' : agree_off nv r r' -> fresh_vars n n' nv -> bnd n vs -> eqon vs r r'.
  Proof. intros A F B v Hv. symmetry. apply A. intros X. destruct (F v X) as [_ ?]. specialize (B v Hv). lia. Qed.
  Lemma bnd_le n m l : n <= m -> bnd n l -> bnd m l.
  Proof. intros L B v Hv. specialize (B v Hv). lia. Qed.
  Lemma bnd_app n a b : bnd n (a ++ b) <-> bnd n a /\ bnd n b.
  Proof. split; [intros H; split; intros v Hv; apply H, in_or_app; auto|intros [A B] v Hv; apply in_app_or in Hv; destruct Hv; auto]. Qed.
  Lemma bnd_incl n a b : incl a b -> bnd n b -> bnd n a.
  Proof. intros I B v Hv. auto. Qed.
  Lemma allh_app a b r : allh (a ++ b) r <-> allh a r /\ allh b r.
  Proof. split; [intros H; split; intros v Hv; apply H, in_or_app; auto|intros [A B] v Hv; apply in_app_or in Hv; destruct Hv; auto]. Qed.
  Lemma alld_app a b r : alld (a ++ b) r <-> alld a r /\ alld b r.
  Proof. split; [intros H; split; intros v Hv; apply H, in_or_app; auto|intros [A B] v Hv; apply in_app_or in Hv; destruct Hv; auto]. Qed.
  Lemma allh_eqon n n' na nv r r' : (forall f, In f na -> bnd n (fvF f)) -> fresh_vars n n' nv -> agree_off nv r r' -> allh na r -> allh na r'.
  Proof. intros B F A H f Hf. apply (holds_agree M f r r'); auto. intros v Hv. exact (fresh_eqon _ _ _ _ _ _ A F (B f Hf) v Hv). Qed.
  Lemma alld_eqon n n' na nv r r' : (forall f, In f na -> bnd n (fvF f)) -> fresh_vars n n' nv -> agree_off nv r r' -> alld na r -> alld na r'.
  Proof. intros B F A H f Hf. apply (proj2 (reg_agree M D Gr) f r r'); [|apply H; auto]. intros v Hv. exact (fresh_eqon _ _ _ _ _ _ A F (B f Hf) v Hv). Qed.

  Lemma ext_trans s s1 s2 nv1 na1 nv2 na2 : ext s s1 nv1 na1 -> ext s1 s2 nv2 na2 -> ext s s2 (nv1 ++ nv2) (na1 ++ na2).
  Proof.
    intros (A1 & A2 & A3 & A4 & A5) (B1 & B2 & B3 & B4 & B5). split; [lia|]. split; [rewrite B2, A2; apply app_assoc_reverse|].
    split; [rewrite B3, A3; apply app_assoc_reverse|]. split.
    - intros v Hv. apply in_app_or in Hv. destruct Hv as [Hv|Hv]; [destruct (A4 v Hv)|destruct (B4 v Hv)]; split; auto; lia.
    - intros f Hf. apply in_app_or in Hf. destruct Hf as [Hf|Hf]; [|apply B5; auto].
      destruct (A5 f Hf) as [A6 A7]. split; auto. exact (bnd_le _ _ _ B1 A6).
  Qed.

  Lemma le_n_trans a b c : a <= b -> b <= c -> a <= c. Proof. lia. Qed.
  Lemma agree_app nv1 nv2 r r1 r2 : agree_off nv1 r r1 -> agree_off nv2 r1 r2 -> agree_off (nv1 ++ nv2) r r2.
  Proof. intros A B v Hv. rewrite B, A; auto; intros X; apply Hv, in_or_app; auto. Qed.

  Lemma Tr_seq g s s1 s2 I J : item_ok I -> item_ok J -> bnd (it_next s) (ov J) -> bnd (it_next s) (fvF g) ->
    Tr g s s1 I -> Tr g s1 s2 J -> Tr g s s2 (itSeq I J).
  Proof.
    intros (I1 & I2 & I3) (J1 & J2 & J3) Bo Bg [L1 T1] [L2 T2]. split; [exact (logs_trans _ _ _ L1 L2)|]. intros Ok.
    destruct (T1 (okst_logs _ _ L2 Ok)) as (nv1 & na1 & E1 & W1 & N1 & K1 & F1 & Z1).
    destruct (T2 Ok) as (nv2 & na2 & E2 & W2 & N2 & K2 & F2 & Z2). clear T1 T2.
    exists (nv1 ++ nv2), (na1 ++ na2).
    assert (E1' := E1). destruct E1' as (A1 & _ & _ & A4 & A5). assert (E2' := E2). destruct E2' as (B1 & _ & _ & B4 & B5).
    split; [exact (ext_trans _ _ _ _ _ _ _ E1 E2)|]. cbn [nw nf same dor dnw qk ni itSeq].
    split; [apply bnd_app; split; auto; exact (bnd_le _ _ _ B1 W1)|]. split; [auto|]. split; [|split].
    - intros rho Hg Ha. apply allh_app in Ha. destruct Ha. split; auto.
    - intros rho. destruct (F1 rho) as (r1 & P1 & P2 & P3 & P4). destruct (F2 r1) as (r2 & Q1 & Q2 & Q3 & Q4).
      assert (X1 : eqon (nw I) r1 r2) by exact (fresh_eqon _ _ _ _ _ _ Q1 B4 W1).
      assert (X2 : eqon (ov J) rho r1) by exact (fresh_eqon _ _ _ _ _ _ P1 A4 Bo).
      exists r2. split; [exact (agree_app _ _ _ _ _ P1 Q1)|]. split; [split|].
      + exact (I1 rho r1 rho r2 (fun v _ => eq_refl) X1 P2).
      + exact (J1 r1 r2 rho r2 (eqon_sym _ _ _ X2) (fun v _ => eq_refl) Q2).
      + split; [apply allh_app; split; auto; exact (allh_eqon _ _ _ _ _ _ (fun f Hf => proj1 (A5 f Hf)) B4 Q1 P3)|].
        intros (QI & QJ) (DI & DJ) DG. destruct (P4 QI DI DG) as [R1 R2].
        assert (DG1 : dF g r1) by (apply (proj2 (reg_agree M D Gr) g rho r1); auto; exact (fresh_eqon _ _ _ _ _ _ P1 A4 Bg)).
        destruct (Q4 QJ (J2 rho r1 X2 DJ) DG1) as [R3 R4].
        split; [split; auto; exact (I3 r1 r2 X1 R1)|]. apply alld_app. split; auto. exact (alld_eqon _ _ _ _ _ _ (fun f Hf => proj1 (A5 f Hf)) B4 Q1 R2).
    - intros [Z3 Z4]. destruct (Z1 Z3), (Z2 Z4). subst. auto.
  Qed.

  Definition quiet (s s' : it_state) : Prop := it_next s' = it_next s /\ it_vars s' = it_vars s /\ it_added s' = it_added s /\ logs s s'.
  Lemma quiet_refl s : quiet s s. Proof. repeat split; auto; apply incl_refl. Qed.

  Lemma Tr_conseq g s s1 s2 I J : quiet s1 s2 -> Tr g s s1 I ->
    (okst s2 -> (forall r r', same I r r' -> same J r r') /\ incl (nw J) (nw I) /\ (nf I -> nf J) /\
       (forall r, qk J -> dor J r -> dor I r) /\ (forall r r', nf I -> qk J -> same I r r' -> dor J r -> dnw I r' -> dnw J r') /\ (qk J -> qk I) /\ (ni J -> ni I)) ->
    Tr g s s2 J.
  Proof.
    intros (Q1 & Q2 & Q3 & Q4) [L T] C. split; [exact (logs_trans _ _ _ L Q4)|]. intros Ok.
    destruct (T (okst_logs _ _ Q4 Ok)) as (nv & na & (E1 & E2 & E3 & E4 & E5) & W & N & B & F & Z). destruct (C Ok) as (C1 & C2 & C3 & C4 & C5 & C6 & C7).
    exists nv, na. split; [unfold ext; rewrite Q1, Q2, Q3; auto|]. rewrite Q1. split; [exact (bnd_incl _ _ _ C2 W)|]. split; [auto|]. split; [auto|]. split.
    - intros rho. destruct (F rho) as (r & P1 & P2 & P3 & P4). exists r. split; auto. split; auto. split; auto. intros X1 X2 X3.
      destruct (P4 (C6 X1) (C4 rho X1 X2) X3) as [X4 X5]. split; auto. exact (C5 rho r N X1 P2 X2 X4).
    - auto.
  Qed.

  Lemma Tr_skip g s e : hasIteE e = false -> bnd (it_next s) (fvE e) -> Tr g s s (itE e e).
  Proof.
    intros H B. split; [apply logs_refl|]. intros _. exists [], []. split; [|split; [exact B|split; [split; [exact H|apply incl_refl]|]]].
    - split; auto. rewrite !app_nil_r. split; auto. split; auto. split; intros ? [].
    - split; [reflexivity|]. split; [|auto]. intros rho. exists rho. split; [intros v _; auto|]. split; [reflexivity|]. split; [intros f []|]. intros _ Hd _. split; auto. intros f [].
  Qed.
  Lemma Tr_skipF g s f : hasIteF f = false -> bnd (it_next s) (fvF f) -> Tr g s s (itF f f).
  Proof.
    intros H B. split; [apply logs_refl|]. intros _. exists [], []. split; [|split; [exact B|split; [exact H|]]].
    - split; auto. rewrite !app_nil_r. split; auto. split; auto. split; intros ? [].
    - split; [intros; apply iff_refl|]. split; [|auto]. intros rho. exists rho. split; [intros v _; auto|]. split; [apply iff_refl|]. split; [intros h []|]. intros _ Hd _. split; auto. intros h [].
  Qed.

  Lemma fv_av : (forall e, incl (fvE e) (avE e)) /\ (forall f, incl (fvF f) (avF f)).
  Proof.
    apply expr_formula_ind2; try (intros; apply incl_refl).
    - intros c ts H v Hv. cbn [fvE avE] in *. apply in_flat_map in Hv. destruct Hv as ([a k] & A & B). apply in_flat_map. exists (a, k). split; auto. rewrite Forall_forall in H. apply (H _ A); auto.
    - intros c ts H v Hv. cbn [fvE avE] in *. apply in_flat_map in Hv. destruct Hv as ([a k] & A & B). apply in_flat_map. exists (a, k). split; auto. rewrite Forall_forall in H. destruct (H _ A) as [H1 H2]. apply in_app_or in B. apply in_or_app. destruct B; [left; apply H1|right; apply H2]; auto.
    - intros o a IH. exact IH.
    - intros o a b IH1 IH2. cbn [fvE avE]. apply incl_app; [apply incl_appl|apply incl_appr]; auto.
    - intros f a b IH0 IH1 IH2. cbn [fvE avE]. repeat apply incl_app; [apply incl_appl; auto|apply incl_appr, incl_appl; auto|apply incl_appr, incl_appr; auto].
    - intros o a b IH1 IH2. cbn [fvF avF]. apply incl_app; [apply incl_appl|apply incl_appr]; auto.
    - intros fs H v Hv. cbn [fvF avF] in *. apply in_flat_map in Hv. destruct Hv as (a & A & B). apply in_flat_map. exists a. split; auto. rewrite Forall_forall in H. apply (H _ A); auto.
    - intros fs H v Hv. cbn [fvF avF] in *. apply in_flat_map in Hv. destruct Hv as (a & A & B). apply in_flat_map. exists a. split; auto. rewrite Forall_forall in H. apply (H _ A); auto.
    - intros f IH. exact IH.
    - intros vs f IH v Hv. cbn [fvF avF] in *. apply filter_In in Hv. apply in_or_app. right. apply IH. tauto.
  Qed.
  Lemma av_fvE n e : bnd n (avE e) -> bnd n (fvE e). Proof. apply bnd_incl, fv_av. Qed.
  Lemma av_fvF n f : bnd n (avF f) -> bnd n (fvF f). Proof. apply bnd_incl, fv_av. Qed.

  Definition SE (e : expr) : Prop := forall g s e' s', iteE fold K e g s = (e', s') -> bnd (it_next s) (avE e) -> bnd (it_next s) (fvF g) -> unfolded fold g ->
    hasIteF g = false -> it_next s <= it_next s' /\ Tr g s s' (itE e e').
  Definition SF (f : formula) : Prop := forall g s f' s', iteF fold K f g s = (f', s') -> bnd (it_next s) (avF f) -> bnd (it_next s) (fvF g) -> unfolded fold g ->
    hasIteF g = false -> it_next s <= it_next s' /\ (okst s' -> unfolded fold f') /\ Tr g s s' (itF f f').

  Lemma node_step s e : quiet s (it_log_node e s).
  Proof. repeat split; auto. apply incl_tl, incl_refl. apply incl_refl. Qed.
  Lemma cmp_step s a b : quiet s (it_log_cmp a b s).
  Proof. repeat split; auto. apply incl_refl. apply incl_tl, incl_refl. Qed.

  (** A rebuilt node. *)
  Lemma Tr_node g s s' e n : Tr g s s' (itE e n) -> Tr g s (it_log_node n s') (itE e (rebuild K n)).
  Proof.
    intros T. apply (Tr_conseq g s s' _ _ _ (node_step s' n) T). intros [Ok _].
    destruct (Ok n (or_introl eq_refl)) as (X1 & X2 & X3 & X4 & X5). cbn [same nw nf qk dor dnw ni itE].
    split; [intros r r' E; rewrite X1; auto|]. split; [auto|]. split; [intros [N1 N2]; split; auto; exact (incl_tran X5 N2)|]. split; [auto|].
    split; [|split; auto]. intros r r' [N1 N2] _ _ _ H. apply reg_noite; auto. apply X2. apply (reg_noite M D Gr n r'); auto.
  Qed.
  (** The two sides of a binary construct, visited one after the other. *)
  Lemma SE_pair a b : SE a -> SE b -> forall g s a' s1 b' s2, iteE fold K a g s = (a', s1) -> iteE fold K b g s1 = (b', s2) ->
    bnd (it_next s) (avE a) -> bnd (it_next s) (avE b) -> bnd (it_next s) (fvF g) -> unfolded fold g -> hasIteF g = false ->
    it_next s <= it_next s2 /\ Tr g s s2 (itSeq (itE a a') (itE b b')).
  Proof.
    intros HA HB g s a' s1 b' s2 Ea Eb Ba Bb Bg Ug Ig.
    destruct (HA g s a' s1 Ea Ba Bg Ug Ig) as [L1 T1].
    destruct (HB g s1 b' s2 Eb (bnd_le _ _ _ L1 Bb) (bnd_le _ _ _ L1 Bg) Ug Ig) as [L2 T2].
    split; [lia|]. apply (Tr_seq g s s1 s2); auto using itE_ok. apply av_fvE; auto.
  Qed.

  (** The two lists. *)
  Definition goA (g : formula) := fix go (l : list (expr * dbl)) (s : it_state) : list (expr * dbl) * it_state := match l with
               | [] => ([], s)
               | (a, k) :: l' => let (a', s1) := iteE fold K a g s in
                                 let (r, s2) := go l' s1 in ((a', k) :: r, s2)
               end.
  Definition goM (g : formula) := fix go (l : list (expr * expr)) (s : it_state) : list (expr * expr) * it_state := match l with
               | [] => ([], s)
               | (a, b) :: l' => let (a', s1) := iteE fold K a g s in
                                 let (b', s2) := iteE fold K b g s1 in
                                 let (r, s3) := go l' s2 in ((a', b') :: r, s3)
               end.

  Lemma exb_false_cons {A} (p : A -> bool) x l : existsb p (x :: l) = false <-> p x = false /\ existsb p l = false.
  Proof. cbn [existsb]. apply orb_false_iff. Qed.

  Lemma goA_spec c ts : Forall (fun p => SE (fst p)) ts -> forall g s ts' s', goA g ts s = (ts', s') ->
    bnd (it_next s) (avE (EAdd c ts)) -> bnd (it_next s) (fvF g) -> unfolded fold g -> hasIteF g = false ->
    it_next s <= it_next s' /\ Tr g s s' (itE (EAdd c ts) (EAdd c ts')).
  Proof.
    induction 1 as [|[a k] ts Ha Hts IH]; intros g s ts' s' E B Bg Ug Ig; cbn [goA] in E.
    - injection E as <- <-. split; [lia|]. apply Tr_skip; auto; intros v [].
    - destruct (iteE fold K a g s) as [a' s1] eqn:Ea. destruct (goA g ts s1) as [r s2] eqn:Er. injection E as <- <-.
      cbn [fst] in Ha. cbn [avE flat_map] in B. apply bnd_app in B. destruct B as [B1 B2].
      destruct (Ha g s a' s1 Ea B1 Bg Ug Ig) as [L1 T1].
      destruct (IH g s1 r s2 Er (bnd_le _ _ _ L1 B2) (bnd_le _ _ _ L1 Bg) Ug Ig) as [L2 T2]. split; [lia|].
      assert (T := Tr_seq g s s1 s2 _ _ (itE_ok a a') (itE_ok (EAdd c ts) (EAdd c r)) (av_fvE _ (EAdd c ts) B2) Bg T1 T2).
      apply (Tr_conseq g s s2 s2 _ _ (quiet_refl s2) T). intros _. cbn [same nw nf qk dor dnw ni itE itSeq].
      split; [intros r0 r' [X1 X2]; cbn [evalE fold_right] in *; rewrite X1, X2; auto|].
      split; [apply incl_refl|]. split; [intros [[X1 _] [X2 _]]; split; [cbn [hasIteE existsb] in *; rewrite X1, X2; auto|intros ? []]|].
      split; [intros r0 _ X; exact X|]. split; [intros r0 r1 _ _ _ _ X; exact X|]. split; [intros X; exact X|].
      cbn [hasIteE existsb]. intros X. apply orb_false_iff in X. exact X.
  Qed.

  Lemma goM_spec c ts : Forall (fun p => SE (fst p) /\ SE (snd p)) ts -> forall g s ts' s', goM g ts s = (ts', s') ->
    bnd (it_next s) (avE (EMul c ts)) -> bnd (it_next s) (fvF g) -> unfolded fold g -> hasIteF g = false ->
    it_next s <= it_next s' /\ Tr g s s' (itE (EMul c ts) (EMul c ts')).
  Proof.
    induction 1 as [|[a b] ts [Ha Hb] Hts IH]; intros g s ts' s' E B Bg Ug Ig; cbn [goM] in E.
    - injection E as <- <-. split; [lia|]. apply Tr_skip; auto; intros v [].
    - destruct (iteE fold K a g s) as [a' s1] eqn:Ea. destruct (iteE fold K b g s1) as [b' s2] eqn:Eb. destruct (goM g ts s2) as [r s3] eqn:Er. injection E as <- <-.
      cbn [fst snd] in Ha, Hb. cbn [avE flat_map] in B. apply bnd_app in B. destruct B as [B1 B2]. apply bnd_app in B1. destruct B1 as [B0 B1].
      destruct (SE_pair a b Ha Hb g s a' s1 b' s2 Ea Eb B0 B1 Bg Ug Ig) as [L1 T1].
      destruct (IH g s2 r s3 Er (bnd_le _ _ _ L1 B2) (bnd_le _ _ _ L1 Bg) Ug Ig) as [L2 T2]. split; [lia|].
      assert (OKab : item_ok (itSeq (itE a a') (itE b b'))) by (apply seq_ok; apply itE_ok).
      assert (T := Tr_seq g s s2 s3 _ _ OKab (itE_ok (EMul c ts) (EMul c r)) (av_fvE _ (EMul c ts) B2) Bg T1 T2).
      apply (Tr_conseq g s s3 s3 _ _ (quiet_refl s3) T). intros _. cbn [same nw nf qk dor dnw ni itE itSeq].
      split; [intros r0 r' [[X1 X2] X3]; cbn [evalE fold_right] in *; rewrite X1, X2, X3; auto|].
      split; [apply incl_refl|]. split; [intros [[[X1 _] [X2 _]] [X3 _]]; split; [cbn [hasIteE existsb] in *; rewrite X1, X2, X3; auto|intros ? []]|].
      split; [intros r0 _ ((X1 & X2 & X3) & X4); auto|].
      split; [intros r0 r1 _ _ [[X1 X2] X3] ((Y1 & Y2 & Y3) & Y4) [[Z1 Z2] Z3]; cbn [regE fold_right]; split; auto; split; auto; split; auto; rewrite X1, X2; auto|].
      split; [intros X; exact X|].
      cbn [hasIteE existsb]. intros X. apply orb_false_iff in X. destruct X as [X ?]. apply orb_false_iff in X. auto.
  Qed.

  Lemma iteF_rel op a b g s : iteF fold K (FRel op a b) g s =
    let (a', s1) := iteE fold K a g s in let (b', s2) := iteE fold K b g s1 in it_rel fold op a' b' s2.
  Proof. reflexivity. Qed.
  Lemma iteF_not h g s : iteF fold K (FNot h) g s = let (h', s') := iteF fold K h g s in (mk_not h', s').
  Proof. reflexivity. Qed.
  Lemma iteF_conn (b : bool) fs g s : iteF fold K (if b then FAnd fs else FOr fs) g s =
    let (ops, s') := smap (fun h s => iteF fold K h g s) fs s in (if b then mk_conj (fset ops) else mk_disj (fset ops), s').
  Proof. destruct b; reflexivity. Qed.
  Lemma iteF_all vs h g s : iteF fold K (FForall vs h) g s =
        let s0 := {| it_next := it_next s; it_vars := []; it_added := [];
                     it_nodes := it_nodes s; it_cmps := it_cmps s |} in
        let (h', s1) :=
          match h with
          | FTrue => (FFalse, s0)
          | FFalse => (FTrue, s0)
          | FNot k => iteF fold K k FTrue s0
          | _ => let (k', s') := iteF fold K h FTrue s0 in (mk_not k', s')
          end in
        let eliminated := it_result (mk_not h) h' s1 in
        (mk_forall (vs ++ it_vars s1) (nnf fold false (mk_not eliminated) true),
         {| it_next := it_next s1; it_vars := it_vars s; it_added := it_added s;
            it_nodes := it_nodes s1; it_cmps := it_cmps s1 |}).
  Proof. destruct h; reflexivity. Qed.
  Lemma iteE_noite e g s : hasIteE e = false -> iteE fold K e g s = (e, s).
  Proof. intros H. destruct e; try reflexivity; cbn [hasIteE] in H; cbn [iteE hasIteE]; try rewrite H; try reflexivity. discriminate. Qed.
  Lemma iteE_ite c a b g s : iteE fold K (EIte c a b) g s =
          let (v, s0) := it_fresh s in
          let (c', s1) := iteF fold K c g s0 in
          let tg := mk_and g c' in
          let eg := mk_and g (mk_not c') in
          let (a', s2) := iteE fold K a tg s1 in
          let (b', s3) := iteE fold K b eg s2 in
          it_close fold v tg eg a' b' s3.
  Proof. reflexivity. Qed.
  Lemma iteE_un o a g s : hasIteE (EUn o a) = true -> iteE fold K (EUn o a) g s = let (a', s') := iteE fold K a g s in it_node K (EUn o a') s'.
  Proof. intros H. cbn [iteE]. rewrite H. reflexivity. Qed.
  Lemma iteE_bin o a b g s : hasIteE (EBin o a b) = true -> iteE fold K (EBin o a b) g s =
    let (a', s1) := iteE fold K a g s in let (b', s2) := iteE fold K b g s1 in it_node K (EBin o a' b') s2.
  Proof. intros H. cbn [iteE]. rewrite H. reflexivity. Qed.
  Lemma iteE_add c ts g s : hasIteE (EAdd c ts) = true -> iteE fold K (EAdd c ts) g s = let (ts', s') := goA g ts s in it_node K (EAdd c ts') s'.
  Proof. intros H. cbn [iteE]. rewrite H. reflexivity. Qed.
  Lemma iteE_mul c ts g s : hasIteE (EMul c ts) = true -> iteE fold K (EMul c ts) g s = let (ts', s') := goM g ts s in it_node K (EMul c ts') s'.
  Proof. intros H. cbn [iteE]. rewrite H. reflexivity. Qed.

  Definition conn (b : bool) (fs : list formula) : formula := if b then FAnd fs else FOr fs.
  Lemma conn_cons_holds b f fs r : hd (conn b (f :: fs)) r <-> (if b then hd f r /\ hd (conn b fs) r else hd f r \/ hd (conn b fs) r).
  Proof. destruct b; reflexivity. Qed.
  Lemma smap_ite b fs : Forall SF fs -> forall g s ops s', smap (fun h s => iteF fold K h g s) fs s = (ops, s') ->
    bnd (it_next s) (avF (conn b fs)) -> bnd (it_next s) (fvF g) -> unfolded fold g -> hasIteF g = false ->
    it_next s <= it_next s' /\ (okst s' -> unfolded fold (conn b ops)) /\ Tr g s s' (itF (conn b fs) (conn b ops)).
  Proof.
    induction 1 as [|f fs Hf Hfs IH]; intros g s ops s' E B Bg Ug Ig; cbn [smap] in E.
    - injection E as <- <-. split; [lia|]. split; [intros _; destruct b; constructor; intros ? []|].
      apply Tr_skipF; [destruct b; auto|intros v; destruct b; intros []].
    - destruct (iteF fold K f g s) as [f' s1] eqn:Ef. destruct (smap _ fs s1) as [r s2] eqn:Er. injection E as <- <-.
      assert (B' : bnd (it_next s) (avF f) /\ bnd (it_next s) (avF (conn b fs))) by (destruct b; cbn [conn avF flat_map] in B |- *; apply bnd_app in B; exact B).
      destruct B' as [B1 B2].
      destruct (Hf g s f' s1 Ef B1 Bg Ug Ig) as (L1 & U1 & T1).
      destruct (IH g s1 r s2 Er (bnd_le _ _ _ L1 B2) (bnd_le _ _ _ L1 Bg) Ug Ig) as (L2 & U2 & T2). split; [lia|]. split.
      { intros Ok. specialize (U1 (okst_logs _ _ (proj1 T2) Ok)). specialize (U2 Ok).
        destruct b; cbn [conn] in *; constructor; intros h [<-|Hh]; auto; inversion U2; auto. }
      assert (T := Tr_seq g s s1 s2 _ _ (itF_ok f f') (itF_ok (conn b fs) (conn b r)) (av_fvF _ _ B2) Bg T1 T2).
      apply (Tr_conseq g s s2 s2 _ _ (quiet_refl s2) T). intros _. cbn [same nw nf qk dor dnw ni itF itSeq].
      split; [intros r0 r' [X1 X2]; rewrite !conn_cons_holds; destruct b; rewrite X1, X2; reflexivity|].
      split; [destruct b; apply incl_refl|].
      split; [intros [X1 X2]; destruct b; cbn [conn hasIteF existsb] in *; rewrite X1, X2; auto|].
      split; [destruct b; intros r0 _ X; exact X|].
      split; [destruct b; intros r0 r1 _ _ _ _ X; exact X|]. split; [destruct b; intros X; exact X|].
      destruct b; cbn [conn hasIteF existsb]; intros X; apply orb_false_iff in X; exact X.
  Qed.

  Lemma fset_cl (P : formula -> Prop) : closedP P -> forall b ops, P (conn b ops) -> P (if b then mk_conj (fset ops) else mk_disj (fset ops)).
  Proof.
    intros C b ops H. destruct b; cbn [conn] in H.
    - apply c_conj; auto. intros g Hg. apply (proj1 (fset_In _ _)) in Hg. exact (proj1 (cA P C ops) H g Hg).
    - apply c_disj; auto. intros g Hg. apply (proj1 (fset_In _ _)) in Hg. exact (proj1 (cO P C ops) H g Hg).
  Qed.
  Lemma fset_holds (b : bool) ops r : hd (if b then mk_conj (fset ops) else mk_disj (fset ops)) r <-> hd (conn b ops) r.
  Proof.
    destruct b; cbn [conn].
    - rewrite mk_conj_holds, holds_and_in. split; intros H g Hg; apply H, fset_In; exact Hg.
    - rewrite mk_disj_holds, holds_or_in. split; intros (g & Hg & H); exists g; (split; [apply fset_In; exact Hg|exact H]).
  Qed.

  (** Variables of the rebuilt connective. *)
  Lemma closed_in L : closedP (fun f => incl (fvF f) L).
  Proof.
    split; try (intros v []); try (intros gs; cbn [fvF]; split;
      [intros H g Hg v Hv; apply H, in_flat_map; eauto|intros H v Hv; apply in_flat_map in Hv; destruct Hv as (g & A & B); apply (H g A v B)]).
    reflexivity.
  Qed.
  Lemma mk_not_fv f : fvF (mk_not f) = fvF f. Proof. destruct f; reflexivity. Qed.
  Lemma mk_not_ite f : hasIteF (mk_not f) = hasIteF f. Proof. destruct f; reflexivity. Qed.
  Lemma mk_not_def f r : dF (mk_not f) r <-> dF f r. Proof. apply (c_not _ (closed_reg M D Gr r)). Qed.
  Lemma mk_not_q f : qplainF (mk_not f) <-> qplainF f. Proof. destruct f; cbn; tauto. Qed.
  Lemma mk_not_av f : avF (mk_not f) = avF f. Proof. destruct f; reflexivity. Qed.

  Lemma mk_rel_bnd n op a b : bnd n (fvE a) -> bnd n (fvE b) -> bnd n (fvF (mk_rel fold op a b)).
  Proof. intros A B. unfold mk_rel. destruct (fold a b) as [c|]; [destruct (relop_on op c); intros v []|cbn [fvF]; apply bnd_app; auto]. Qed.
  Lemma mk_rel_ite op a b : hasIteE a = false -> hasIteE b = false -> hasIteF (mk_rel fold op a b) = false.
  Proof. intros A B. unfold mk_rel. destruct (fold a b) as [c|]; [destruct (relop_on op c); auto|cbn [hasIteF]; rewrite A, B; auto]. Qed.
  Lemma mk_rel_unf op a b : unfolded fold (mk_rel fold op a b).
  Proof. unfold mk_rel. destruct (fold a b) as [c|] eqn:E; [destruct (relop_on op c); constructor|constructor; auto]. Qed.
  Lemma mk_eq_def a b r : dE a r -> dE b r -> dF (mk_rel fold REq a b) r.
  Proof. intros A B. unfold mk_rel. destruct (fold a b) as [c|]; [destruct (relop_on REq c); exact I|cbn [regF]; auto]. Qed.

  Lemma conn_case b fs : Forall SF fs -> SF (conn b fs).
  Proof.
    intros H g s f' s' E B Bg Ug Ig.
    assert (E' : exists ops, smap (fun h s => iteF fold K h g s) fs s = (ops, s') /\ f' = if b then mk_conj (fset ops) else mk_disj (fset ops)).
    { unfold conn in E. rewrite iteF_conn in E. destruct (smap _ fs s) as [ops s1]; injection E as <- <-; eauto. }
    clear E. destruct E' as (ops & E & ->).
    destruct (smap_ite b fs H g s ops s' E B Bg Ug Ig) as (L & U & T). split; auto. split; [intros Ok; apply (fset_cl _ (closed_unf fold)); auto|].
    apply (Tr_conseq g s s' s' _ _ (quiet_refl s') T). intros _. cbn [same nw nf qk dor dnw ni itF].
    split; [intros r r' X; rewrite fset_holds; exact X|]. split; [apply (fset_cl _ (closed_in (fvF (conn b ops)))); apply incl_refl|].
    split; [apply (fset_cl _ closed_ite)|]. split; [auto|]. split; [intros r r' _ _ _ _; apply (fset_cl _ (closed_reg M D Gr r'))|]. auto.
  Qed.

  Lemma rel_case op a b : SE a -> SE b -> SF (FRel op a b).
  Proof.
    intros HA HB g s f' s' E B Bg Ug Ig. rewrite iteF_rel in E. destruct (iteE fold K a g s) as [a' s1] eqn:Ea. destruct (iteE fold K b g s1) as [b' s2] eqn:Eb.
    unfold it_rel in E. injection E as <- <-. cbn [avF] in B. apply bnd_app in B. destruct B as [B1 B2].
    destruct (SE_pair a b HA HB g s a' s1 b' s2 Ea Eb B1 B2 Bg Ug Ig) as [L T]. split; [exact L|].
    split; [intros _; unfold mk_rel; destruct (fold a' b') as [c|] eqn:Ef; [destruct (relop_on op c); constructor|constructor; auto]|].
    apply (Tr_conseq g s s2 _ _ _ (cmp_step s2 a' b') T). intros [_ Ok]. specialize (Ok a' b' (or_introl eq_refl)).
    cbn [same nw nf qk dor dnw ni itE itF itSeq].
    split; [intros r r' [X1 X2]; rewrite (Ok op r'), X1, X2; reflexivity|].
    split; [unfold mk_rel; destruct (fold a' b') as [c|]; [destruct (relop_on op c); intros v []|apply incl_refl]|].
    split; [intros [[X1 _] [X2 _]]; unfold mk_rel; destruct (fold a' b') as [c|]; [destruct (relop_on op c); auto|cbn [hasIteF]; rewrite X1, X2; auto]|].
    split; [intros r _ [X _]; exact X|].
    split; [intros r r' [[_ N1] [_ N2]] _ [X1 X2] [_ Y] X; unfold mk_rel; destruct (fold a' b') as [c|]; [destruct (relop_on op c); exact I|split; [exact X|rewrite X1, X2; exact (G_sub _ _ _ _ _ _ _ N1 N2 Y)]]|].
    split; [intros X; exact X|]. intros X. cbn [hasIteF] in X. apply orb_false_iff in X. exact X.
  Qed.

  Lemma not_case f : SF f -> SF (FNot f).
  Proof.
    intros H g s f' s' E B Bg Ug Ig. rewrite iteF_not in E. destruct (iteF fold K f g s) as [h s1] eqn:Ef. injection E as <- <-.
    destruct (H g s h s1 Ef B Bg Ug Ig) as (L & U & T). split; auto. split; [intros Ok; apply (c_not _ (closed_unf fold)); auto|].
    apply (Tr_conseq g s s1 s1 _ _ (quiet_refl s1) T). intros _. cbn [same nw nf qk dor dnw ni itF].
    split; [intros r r' X; rewrite mk_not_holds; cbn [holds]; rewrite X; reflexivity|]. rewrite mk_not_fv, mk_not_ite.
    split; [apply incl_refl|]. split; [auto|]. split; [auto|]. split; [intros r r' _ _ _ _ X; apply mk_not_def; auto|]. auto.
  Qed.

  Lemma un_case o a : SE a -> SE (EUn o a).
  Proof.
    intros H g s e' s' E B Bg Ug Ig. destruct (hasIteE (EUn o a)) eqn:Hi.
    - rewrite iteE_un in E by exact Hi. destruct (iteE fold K a g s) as [a' s1] eqn:Ea. injection E as <- <-.
      destruct (H g s a' s1 Ea B Bg Ug Ig) as [L T]. split; [exact L|]. apply Tr_node.
      apply (Tr_conseq g s s1 s1 _ _ (quiet_refl s1) T). intros _. cbn [same nw nf qk dor dnw ni itE].
      split; [intros r r' X; cbn [evalE]; rewrite X; auto|]. split; [apply incl_refl|]. split; [intros [X _]; split; [exact X|intros ? []]|].
      split; [intros r _ [X _]; exact X|]. split; [|auto]. intros r r' _ _ X [Y1 Y2] Z. cbn [regE]. rewrite X. auto.
    - rewrite iteE_noite in E by exact Hi. injection E as <- <-. split; auto. apply Tr_skip; auto. apply av_fvE; auto.
  Qed.
  Lemma bin_case o a b : SE a -> SE b -> SE (EBin o a b).
  Proof.
    intros Ha Hb g s e' s' E B Bg Ug Ig. destruct (hasIteE (EBin o a b)) eqn:Hi.
    - rewrite iteE_bin in E by exact Hi. destruct (iteE fold K a g s) as [a' s1] eqn:Ea. destruct (iteE fold K b g s1) as [b' s2] eqn:Eb. injection E as <- <-.
      cbn [avE] in B. apply bnd_app in B. destruct B as [B1 B2].
      destruct (SE_pair a b Ha Hb g s a' s1 b' s2 Ea Eb B1 B2 Bg Ug Ig) as [L T]. split; [exact L|]. apply Tr_node.
      apply (Tr_conseq g s s2 s2 _ _ (quiet_refl s2) T). intros _. cbn [same nw nf qk dor dnw ni itE itSeq].
      split; [intros r r' [X1 X2]; cbn [evalE]; rewrite X1, X2; auto|]. split; [apply incl_refl|]. split; [intros [[X1 _] [X2 _]]; split; [cbn [hasIteE]; rewrite X1, X2; auto|intros ? []]|].
      split; [intros r _ (X & Y & _); auto|]. split; [|split; [auto|intros X; cbn [hasIteE] in X; apply orb_false_iff in X; exact X]].
      intros r r' _ _ [X1 X2] (Y1 & Y2 & Y3) [Z1 Z2]. cbn [regE]. rewrite X1, X2. auto.
    - rewrite iteE_noite in E by exact Hi. injection E as <- <-. split; auto. apply Tr_skip; auto. apply av_fvE; auto.
  Qed.
  Lemma add_case c ts : Forall (fun p => SE (fst p)) ts -> SE (EAdd c ts).
  Proof.
    intros H g s e' s' E B Bg Ug Ig. destruct (hasIteE (EAdd c ts)) eqn:Hi.
    - rewrite iteE_add in E by exact Hi. destruct (goA g ts s) as [ts' s1] eqn:Ea. injection E as <- <-.
      destruct (goA_spec c ts H g s ts' s1 Ea B Bg Ug Ig) as [L T]. split; [exact L|]. apply Tr_node. exact T.
    - rewrite iteE_noite in E by exact Hi. injection E as <- <-. split; auto. apply Tr_skip; auto. apply av_fvE; auto.
  Qed.
  Lemma mul_case c ts : Forall (fun p => SE (fst p) /\ SE (snd p)) ts -> SE (EMul c ts).
  Proof.
    intros H g s e' s' E B Bg Ug Ig. destruct (hasIteE (EMul c ts)) eqn:Hi.
    - rewrite iteE_mul in E by exact Hi. destruct (goM g ts s) as [ts' s1] eqn:Ea. injection E as <- <-.
      destruct (goM_spec c ts H g s ts' s1 Ea B Bg Ug Ig) as [L T]. split; [exact L|]. apply Tr_node. exact T.
    - rewrite iteE_noite in E by exact Hi. injection E as <- <-. split; auto. apply Tr_skip; auto. apply av_fvE; auto.
  Qed.

  (** ** The counter and the logs only grow *)
  Definition le_st (s s' : it_state) : Prop := it_next s <= it_next s' /\ logs s s'.
  Lemma le_refl s : le_st s s. Proof. split; auto using logs_refl. Qed.
  Lemma le_trans a b c : le_st a b -> le_st b c -> le_st a c.
  Proof. intros [A B] [A' B']. split; [lia|exact (logs_trans _ _ _ B B')]. Qed.
  Lemma le_node n s : le_st s (it_log_node n s). Proof. split; [auto|]. apply (node_step s n). Qed.
  Lemma le_cmp a b s : le_st s (it_log_cmp a b s). Proof. split; [auto|]. apply (cmp_step s a b). Qed.
  Lemma le_push f s : le_st s (it_push f s). Proof. split; [auto|]. split; apply incl_refl. Qed.
  Lemma goA_le g ts : Forall (fun p => forall g s e' s', iteE fold K (fst p) g s = (e', s') -> le_st s s') ts -> forall s ts' s', goA g ts s = (ts', s') -> le_st s s'.
  Proof.
    induction 1 as [|[a k] ts Ha Hts IH]; intros s ts' s' E; cbn [goA] in E; [injection E as <- <-; apply le_refl|].
    destruct (iteE fold K a g s) as [a' s1] eqn:Ea. destruct (goA g ts s1) as [r s2] eqn:Er. injection E as <- <-.
    exact (le_trans _ _ _ (Ha _ _ _ _ Ea) (IH _ _ _ Er)).
  Qed.
  Lemma goM_le g ts : Forall (fun p => (forall g s e' s', iteE fold K (fst p) g s = (e', s') -> le_st s s') /\ (forall g s e' s', iteE fold K (snd p) g s = (e', s') -> le_st s s')) ts ->
    forall s ts' s', goM g ts s = (ts', s') -> le_st s s'.
  Proof.
    induction 1 as [|[a b] ts [Ha Hb] Hts IH]; intros s ts' s' E; cbn [goM] in E; [injection E as <- <-; apply le_refl|].
    destruct (iteE fold K a g s) as [a' s1] eqn:Ea. destruct (iteE fold K b g s1) as [b' s2] eqn:Eb. destruct (goM g ts s2) as [r s3] eqn:Er. injection E as <- <-.
    exact (le_trans _ _ _ (Ha _ _ _ _ Ea) (le_trans _ _ _ (Hb _ _ _ _ Eb) (IH _ _ _ Er))).
  Qed.
  Lemma smap_le g fs : Forall (fun f => forall g s e' s', iteF fold K f g s = (e', s') -> le_st s s') fs ->
    forall s ops s', smap (fun h s => iteF fold K h g s) fs s = (ops, s') -> le_st s s'.
  Proof.
    induction 1 as [|f fs Hf Hfs IH]; intros s ops s' E; cbn [smap] in E; [injection E as <- <-; apply le_refl|].
    destruct (iteF fold K f g s) as [f' s1] eqn:Ef. destruct (smap _ fs s1) as [r s2] eqn:Er. injection E as <- <-.
    exact (le_trans _ _ _ (Hf _ _ _ _ Ef) (IH _ _ _ Er)).
  Qed.
  Definition inner_state (s : it_state) : it_state :=
    {| it_next := it_next s; it_vars := []; it_added := []; it_nodes := it_nodes s; it_cmps := it_cmps s |}.
  Definition inner (h : formula) (s0 : it_state) : formula * it_state :=
    match h with
    | FTrue => (FFalse, s0)
    | FFalse => (FTrue, s0)
    | FNot k => iteF fold K k FTrue s0
    | _ => let (k', s') := iteF fold K h FTrue s0 in (mk_not k', s')
    end.
  (** Visiting the negated body is, up to a double negation, visiting the body. *)
  Lemma inner_eq h s0 : forall h' s1, inner h s0 = (h', s1) -> exists k', iteF fold K h FTrue s0 = (k', s1) /\ (mk_not h' = k' \/ h' = mk_not k').
  Proof.
    intros h' s1 E. destruct h; cbn [inner] in E;
      try (destruct (iteF fold K _ FTrue s0) as [k' s'] eqn:Ek; injection E as <- <-; exists k'; auto; fail).
    - injection E as <- <-. exists FTrue. auto.
    - injection E as <- <-. exists FFalse. auto.
    - rewrite iteF_not, E. eauto.
  Qed.
  Lemma ite_le : (forall e g s e' s', iteE fold K e g s = (e', s') -> le_st s s') /\
                 (forall f g s f' s', iteF fold K f g s = (f', s') -> le_st s s').
  Proof.
    apply expr_formula_ind2; try (intros; match goal with H : _ = (_, _) |- _ => injection H as <- <- end; apply le_refl).
    - intros c ts H g s e' s' E. destruct (hasIteE (EAdd c ts)) eqn:Hi; [|rewrite iteE_noite in E by exact Hi; injection E as <- <-; apply le_refl].
      rewrite iteE_add in E by exact Hi. destruct (goA g ts s) as [ts' s1] eqn:Ea. injection E as <- <-. exact (le_trans _ _ _ (goA_le g ts H _ _ _ Ea) (le_node _ _)).
    - intros c ts H g s e' s' E. destruct (hasIteE (EMul c ts)) eqn:Hi; [|rewrite iteE_noite in E by exact Hi; injection E as <- <-; apply le_refl].
      rewrite iteE_mul in E by exact Hi. destruct (goM g ts s) as [ts' s1] eqn:Ea. injection E as <- <-. exact (le_trans _ _ _ (goM_le g ts H _ _ _ Ea) (le_node _ _)).
    - intros o a H g s e' s' E. destruct (hasIteE (EUn o a)) eqn:Hi; [|rewrite iteE_noite in E by exact Hi; injection E as <- <-; apply le_refl].
      rewrite iteE_un in E by exact Hi. destruct (iteE fold K a g s) as [a' s1] eqn:Ea. injection E as <- <-. exact (le_trans _ _ _ (H _ _ _ _ Ea) (le_node _ _)).
    - intros o a b Ha Hb g s e' s' E. destruct (hasIteE (EBin o a b)) eqn:Hi; [|rewrite iteE_noite in E by exact Hi; injection E as <- <-; apply le_refl].
      rewrite iteE_bin in E by exact Hi. destruct (iteE fold K a g s) as [a' s1] eqn:Ea. destruct (iteE fold K b g s1) as [b' s2] eqn:Eb. injection E as <- <-.
      exact (le_trans _ _ _ (Ha _ _ _ _ Ea) (le_trans _ _ _ (Hb _ _ _ _ Eb) (le_node _ _))).
    - intros c a b Hc Ha Hb g s e' s' E. rewrite iteE_ite in E. unfold it_fresh in E.
      destruct (iteF fold K c g _) as [c' s1] eqn:Ec. cbv zeta in E. destruct (iteE fold K a _ s1) as [a' s2] eqn:Ea. destruct (iteE fold K b _ s2) as [b' s3] eqn:Eb.
      unfold it_close, it_rel in E. injection E as <- <-.
      assert (L : le_st s s3).
      { refine (le_trans _ _ _ _ (le_trans _ _ _ (Hc _ _ _ _ Ec) (le_trans _ _ _ (Ha _ _ _ _ Ea) (Hb _ _ _ _ Eb)))).
        split; [cbn; lia|split; apply incl_refl]. }
      refine (le_trans _ _ _ L _). refine (le_trans _ _ _ (le_cmp _ _ _) (le_trans _ _ _ (le_push _ _) (le_trans _ _ _ (le_cmp _ _ _) (le_push _ _)))).
    - intros op a b Ha Hb g s e' s' E. rewrite iteF_rel in E. destruct (iteE fold K a g s) as [a' s1] eqn:Ea. destruct (iteE fold K b g s1) as [b' s2] eqn:Eb. injection E as <- <-.
      exact (le_trans _ _ _ (Ha _ _ _ _ Ea) (le_trans _ _ _ (Hb _ _ _ _ Eb) (le_cmp _ _ _))).
    - intros fs H g s e' s' E. rewrite (iteF_conn true) in E. destruct (smap _ fs s) as [ops s1] eqn:Eo. injection E as <- <-. exact (smap_le g fs H _ _ _ Eo).
    - intros fs H g s e' s' E. rewrite (iteF_conn false) in E. destruct (smap _ fs s) as [ops s1] eqn:Eo. injection E as <- <-. exact (smap_le g fs H _ _ _ Eo).
    - intros f H g s e' s' E. rewrite iteF_not in E. destruct (iteF fold K f g s) as [f' s1] eqn:Ef. injection E as <- <-. exact (H _ _ _ _ Ef).
    - intros vs f H g s e' s' E. rewrite iteF_all in E. cbv zeta in E. fold (inner_state s) in E. fold (inner f (inner_state s)) in E.
      destruct (inner f (inner_state s)) as [h' s1] eqn:Ei. injection E as <- <-.
      destruct (inner_eq _ _ _ _ Ei) as (k' & Ek & _). destruct (H _ _ _ _ Ek) as [L1 L2]. split; [exact L1|exact L2].
  Qed.

  Lemma close_case c a b : SF c -> SE a -> SE b -> SE (EIte c a b).
  Proof.
    intros Hc Ha Hb g s e' s' E B Bg Ug Ig. assert (LE := proj1 ite_le _ _ _ _ _ E). destruct LE as [LE1 LE2]. split; [exact LE1|]. split; [exact LE2|]. intros Ok.
    rewrite iteE_ite in E. unfold it_fresh in E. remember {| it_next := S (it_next s); it_vars := it_vars s ++ [mkVar (it_next s) CONTINUOUS]; it_added := it_added s; it_nodes := it_nodes s; it_cmps := it_cmps s |} as s0 eqn:Es0.
    remember (mkVar (it_next s) CONTINUOUS) as v eqn:Ev.
    destruct (iteF fold K c g s0) as [c' s1] eqn:Ec. cbv zeta in E. destruct (iteE fold K a (mk_and g c') s1) as [a' s2] eqn:Ea. destruct (iteE fold K b (mk_and g (mk_not c')) s2) as [b' s3] eqn:Eb.
    unfold it_close, it_rel in E. injection E as <- <-.
    remember (mk_and g c') as tg eqn:Etg. remember (mk_and g (mk_not c')) as eg eqn:Eeg.
    cbn [it_push it_log_cmp it_next it_vars it_added it_nodes it_cmps] in *.
    destruct Ok as [Okn Okc]. cbn [it_nodes it_cmps] in Okn, Okc.
    assert (Ok3 : okst s3) by (split; intros; [apply Okn|apply Okc]; cbn; auto).
    assert (C1 : cmp_exact M fold (EVar v) a') by (apply Okc; cbn; auto).
    assert (C2 : cmp_exact M fold (EVar v) b') by (apply Okc; cbn; auto).
    assert (Ok2 : okst s2) by exact (okst_logs _ _ (proj2 (proj1 ite_le _ _ _ _ _ Eb)) Ok3).
    assert (Ok1 : okst s1) by exact (okst_logs _ _ (proj2 (proj1 ite_le _ _ _ _ _ Ea)) Ok2).
    cbn [avE] in B. apply bnd_app in B. destruct B as [Bc B]. apply bnd_app in B. destruct B as [Ba Bb].
    assert (L0 : it_next s <= it_next s0) by (subst s0; cbn; lia).
    destruct (Hc g s0 c' s1 Ec (bnd_le _ _ _ L0 Bc) (bnd_le _ _ _ L0 Bg) Ug Ig) as (L1 & U1 & _ & T1). specialize (U1 Ok1). specialize (T1 Ok1).
    destruct T1 as (nv1 & na1 & E1 & W1 & N1 & K1 & F1 & Z1). cbn [nw nf same dor dnw qk ni itF] in *.
    assert (Btg : bnd (it_next s1) (fvF tg)) by (subst tg; apply (c_and _ (closed_bnd _)); auto; apply (bnd_le _ _ _ (le_n_trans _ _ _ L0 L1) Bg)).
    assert (Beg : bnd (it_next s1) (fvF eg)) by (subst eg; apply (c_and _ (closed_bnd _)); [apply (bnd_le _ _ _ (le_n_trans _ _ _ L0 L1) Bg)|rewrite mk_not_fv; auto]).
    assert (Utg : unfolded fold tg) by (subst tg; apply (c_and _ (closed_unf _)); auto).
    assert (Ueg : unfolded fold eg) by (subst eg; apply (c_and _ (closed_unf _)); auto; apply (c_not _ (closed_unf _)); auto).
    assert (Itg : hasIteF tg = false) by (subst tg; apply (c_and _ closed_ite); auto).
    assert (Ieg : hasIteF eg = false) by (subst eg; apply (c_and _ closed_ite); auto; rewrite mk_not_ite; auto).
    destruct (Ha tg s1 a' s2 Ea (bnd_le _ _ _ (le_n_trans _ _ _ L0 L1) Ba) Btg Utg Itg) as (L2 & _ & T2). specialize (T2 Ok2).
    destruct T2 as (nv2 & na2 & E2 & W2 & N2 & K2 & F2 & Z2). cbn [nw nf same dor dnw qk ni itE] in *.
    destruct (Hb eg s2 b' s3 Eb (bnd_le _ _ _ L2 (bnd_le _ _ _ (le_n_trans _ _ _ L0 L1) Bb)) (bnd_le _ _ _ L2 Beg) Ueg Ieg) as (L3 & _ & T3). specialize (T3 Ok3).
    destruct T3 as (nv3 & na3 & E3 & W3 & N3 & K3 & F3 & Z3). cbn [nw nf same dor dnw qk ni itE] in *.
    apply proj1 in N2. apply proj1 in N3.
    remember (mk_or (mk_not tg) (mk_rel fold REq (EVar v) a')) as q1 eqn:Eq1. remember (mk_or (mk_not eg) (mk_rel fold REq (EVar v) b')) as q2 eqn:Eq2.
    assert (E123 := ext_trans _ _ _ _ _ _ _ E1 (ext_trans _ _ _ _ _ _ _ E2 E3)).
    exists (v :: nv1 ++ nv2 ++ nv3), ((na1 ++ na2 ++ na3) ++ [q1; q2]).
    assert (Next0 : it_next s0 = S (it_next s)) by (subst s0; reflexivity).
    assert (Hv : vid v = it_next s) by (subst v; reflexivity).
    assert (Bv : bnd (it_next s3) [v]) by (intros w [<-|[]]; lia).
    assert (Wa : bnd (it_next s3) (fvE a')) by exact (bnd_le _ _ _ L3 W2).
    assert (Wc : bnd (it_next s3) (fvF c')) by exact (bnd_le _ _ _ (le_n_trans _ _ _ L2 L3) W1).
    assert (Q1 : bnd (it_next s3) (fvF q1) /\ hasIteF q1 = false /\ unfolded fold q1).
    { subst q1. split; [|split].
      - apply (c_or _ (closed_bnd _)); [rewrite mk_not_fv; exact (bnd_le _ _ _ (le_n_trans _ _ _ L2 L3) Btg)|]. apply mk_rel_bnd; auto.
      - apply (c_or _ closed_ite); [rewrite mk_not_ite; auto|]. apply mk_rel_ite; auto.
      - apply (c_or _ (closed_unf _)); [apply (c_not _ (closed_unf _)); auto|]. apply mk_rel_unf. }
    assert (Q2 : bnd (it_next s3) (fvF q2) /\ hasIteF q2 = false /\ unfolded fold q2).
    { subst q2. split; [|split].
      - apply (c_or _ (closed_bnd _)); [rewrite mk_not_fv; exact (bnd_le _ _ _ (le_n_trans _ _ _ L2 L3) Beg)|]. apply mk_rel_bnd; auto.
      - apply (c_or _ closed_ite); [rewrite mk_not_ite; auto|]. apply mk_rel_ite; auto.
      - apply (c_or _ (closed_unf _)); [apply (c_not _ (closed_unf _)); auto|]. apply mk_rel_unf. }
    assert (Hq1 : forall r, hd q1 r <-> (hd tg r -> r v = ev a' r)).
    { intros r. subst q1. rewrite mk_or_holds, mk_not_holds, (C1 REq r). cbn [relR evalE]. destruct (classic (hd tg r)); tauto. }
    assert (Hq2 : forall r, hd q2 r <-> (hd eg r -> r v = ev b' r)).
    { intros r. subst q2. rewrite mk_or_holds, mk_not_holds, (C2 REq r). cbn [relR evalE]. destruct (classic (hd eg r)); tauto. }
    assert (Htg : forall r, hd tg r <-> hd g r /\ hd c' r) by (intros r; subst tg; apply mk_and_holds).
    assert (Heg : forall r, hd eg r <-> hd g r /\ ~ hd c' r) by (intros r; subst eg; rewrite mk_and_holds, mk_not_holds; reflexivity).
    assert (Dtg : forall r, dF g r -> dF c' r -> dF tg r) by (intros r X Y; subst tg; apply (c_and _ (closed_reg M D Gr r)); auto).
    assert (Deg : forall r, dF g r -> dF c' r -> dF eg r) by (intros r X Y; subst eg; apply (c_and _ (closed_reg M D Gr r)); auto; apply mk_not_def; auto).
    assert (Dq1 : forall r, dF tg r -> dE a' r -> dF q1 r) by (intros r X Y; subst q1; apply (c_or _ (closed_reg M D Gr r)); [apply mk_not_def; auto|apply mk_eq_def; auto; exact I]).
    assert (Dq2 : forall r, dF eg r -> dE b' r -> dF q2 r) by (intros r X Y; subst q2; apply (c_or _ (closed_reg M D Gr r)); [apply mk_not_def; auto|apply mk_eq_def; auto; exact I]).
    clear Eq1 Eq2 Etg Eeg.
    destruct E123 as (X1 & X2 & X3 & X4 & X5).
    assert (FV : fresh_vars (it_next s) (it_next s3) (v :: nv1 ++ nv2 ++ nv3)).
    { intros w [<-|Hw]; [split; [subst v; reflexivity|lia]|]. destruct (X4 w Hw). split; auto. lia. }
    split; [|split; [exact Bv|split; [split; [reflexivity|intros ? []]|split; [|split; [|discriminate]]]]].
    - unfold ext. cbn [it_push it_log_cmp it_next it_vars it_added]. split; [lia|]. split; [rewrite X2, Es0; cbn [it_vars]; rewrite <- app_assoc; reflexivity|].
      split; [rewrite X3, Es0; cbn [it_added]; rewrite <- !app_assoc; reflexivity|]. split; [exact FV|].
      intros f Hf. apply in_app_or in Hf. destruct Hf as [Hf|[<-|[<-|[]]]]; auto.
    - intros rho Hg Hna. apply allh_app in Hna. destruct Hna as [Hna Hq]. apply allh_app in Hna. destruct Hna as [Hna1 Hna]. apply allh_app in Hna. destruct Hna as [Hna2 Hna3].
      specialize (K1 rho Hg Hna1). pose proof (proj1 (Hq1 rho) (Hq q1 (or_introl eq_refl))) as HQ1. pose proof (proj1 (Hq2 rho) (Hq q2 (or_intror (or_introl eq_refl)))) as HQ2.
      cbn [same itE]. change (ev (EVar v) rho) with (rho v). destruct (classic (hd c rho)) as [Hcc|Hcc].
      + assert (G : hd tg rho) by (apply Htg; tauto). rewrite (proj1 (ev_ite M c a b rho) Hcc), (HQ1 G). exact (K2 rho G Hna2).
      + assert (G : hd eg rho) by (apply Heg; tauto). rewrite (proj2 (ev_ite M c a b rho) Hcc), (HQ2 G). exact (K3 rho G Hna3).
    - intros rho. remember (ev (EIte c a b) rho) as val eqn:Eval.
      set (r0 := fun w => if var_eq_dec w v then val else rho w).
      assert (A0 : agree_off [v] rho r0). { intros w Hw. unfold r0. destruct (var_eq_dec w v) as [->|]; auto. exfalso; apply Hw; left; auto. }
      assert (V0 : r0 v = val) by (unfold r0; destruct (var_eq_dec v v); congruence).
      assert (FV0 : fresh_vars (it_next s) (it_next s0) [v]) by (intros w [<-|[]]; split; [subst v; reflexivity|lia]).
      destruct (F1 r0) as (r1 & P1 & P2 & P3 & P4). destruct (F2 r1) as (r2 & R1 & R2 & R3 & R4). destruct (F3 r2) as (r3 & S1 & S2 & S3 & S4).
      assert (E1' := E1). destruct E1' as (_ & _ & _ & A4 & A5). assert (E2' := E2). destruct E2' as (_ & _ & _ & B4 & B5). assert (E3' := E3). destruct E3' as (_ & _ & _ & D4 & D5).
      assert (A01 : agree_off ([v] ++ nv1) rho r1) by exact (agree_app _ _ _ _ _ A0 P1).
      assert (A02 : agree_off (([v] ++ nv1) ++ nv2) rho r2) by exact (agree_app _ _ _ _ _ A01 R1).
      assert (FV1 : fresh_vars (it_next s) (it_next s1) ([v] ++ nv1)).
      { intros w Hw. apply in_app_or in Hw. destruct Hw as [Hw|Hw]; [destruct (FV0 w Hw)|destruct (A4 w Hw)]; split; auto; lia. }
      assert (FV2 : fresh_vars (it_next s) (it_next s2) (([v] ++ nv1) ++ nv2)).
      { intros w Hw. apply in_app_or in Hw. destruct Hw as [Hw|Hw]; [destruct (FV1 w Hw)|destruct (B4 w Hw)]; split; auto; lia. }
      assert (Xc : eqon (fvF c) rho r0) by exact (fresh_eqon _ _ _ _ _ _ A0 FV0 (av_fvF _ _ Bc)).
      assert (Xa : eqon (fvE a) rho r1) by exact (fresh_eqon _ _ _ _ _ _ A01 FV1 (av_fvE _ _ Ba)).
      assert (Xb : eqon (fvE b) rho r2) by exact (fresh_eqon _ _ _ _ _ _ A02 FV2 (av_fvE _ _ Bb)).
      assert (A13 : agree_off (nv2 ++ nv3) r1 r3) by exact (agree_app _ _ _ _ _ R1 S1).
      assert (FV13 : fresh_vars (it_next s1) (it_next s3) (nv2 ++ nv3)).
      { intros w Hw. apply in_app_or in Hw. destruct Hw as [Hw|Hw]; [destruct (B4 w Hw)|destruct (D4 w Hw)]; split; auto; lia. }
      assert (Yc : eqon (fvF c') r1 r3) by exact (fresh_eqon _ _ _ _ _ _ A13 FV13 W1).
      assert (Ya : eqon (fvE a') r2 r3) by exact (fresh_eqon _ _ _ _ _ _ S1 D4 W2).
      assert (Yt : eqon (fvF tg) r1 r3) by exact (fresh_eqon _ _ _ _ _ _ A13 FV13 Btg).
      assert (Ye : eqon (fvF eg) r1 r3) by exact (fresh_eqon _ _ _ _ _ _ A13 FV13 Beg).
      assert (V3 : r3 v = val).
      { rewrite <- V0. transitivity (r1 v).
        - apply A13. intros Hw. destruct (FV13 v Hw). lia.
        - apply P1. intros Hw. destruct (A4 v Hw). lia. }
      assert (Cc : hd c' r3 <-> hd c rho) by (rewrite <- (holds_agree M c' r1 r3 Yc), P2; symmetry; apply holds_agree; exact Xc).
      assert (Ca : ev a' r3 = ev a rho) by (rewrite <- (evalE_agree M a' r2 r3 Ya), R2; symmetry; apply evalE_agree; exact Xa).
      assert (Cb : ev b' r3 = ev b rho) by (rewrite S2; symmetry; apply evalE_agree; exact Xb).
      exists r3. split; [|split; [|split]].
      + replace (v :: nv1 ++ nv2 ++ nv3) with ((([v] ++ nv1) ++ nv2) ++ nv3) by (cbn; rewrite <- app_assoc; reflexivity).
        exact (agree_app _ _ _ _ _ A02 S1).
      + cbn [same itE]. change (ev (EVar v) r3) with (r3 v). rewrite V3. exact Eval.
      + apply allh_app. split.
        * apply allh_app. split; [exact (allh_eqon _ _ _ _ _ _ (fun f Hf => proj1 (A5 f Hf)) FV13 A13 P3)|].
          apply allh_app. split; auto. exact (allh_eqon _ _ _ _ _ _ (fun f Hf => proj1 (B5 f Hf)) D4 S1 R3).
        * intros f [<-|[<-|[]]].
          -- apply Hq1. intros G. apply Htg in G. rewrite V3, Ca, Eval. apply (ev_ite M c a b rho). tauto.
          -- apply Hq2. intros G. apply Heg in G. rewrite V3, Cb, Eval. apply (ev_ite M c a b rho). tauto.
      + cbn [qk dor dnw itE qplainE regE]. intros (q3 & q4 & q5) (d1 & d2 & d3) dg. split; [exact I|].
        assert (dg0 : dF g r0) by (apply (proj2 (reg_agree M D Gr) g rho r0); auto; exact (fresh_eqon _ _ _ _ _ _ A0 FV0 Bg)).
        destruct (P4 q3 (proj2 (reg_agree M D Gr) c rho r0 Xc d1) dg0) as [d4 d5].
        assert (dg1 : dF g r1) by (apply (proj2 (reg_agree M D Gr) g rho r1); auto; exact (fresh_eqon _ _ _ _ _ _ A01 FV1 Bg)).
        assert (dt1 : dF tg r1) by exact (Dtg r1 dg1 d4).
        assert (de1 : dF eg r1) by exact (Deg r1 dg1 d4).
        destruct (R4 q4 (proj1 (reg_agree M D Gr) a rho r1 Xa d2) dt1) as [d6 d7].
        assert (de2 : dF eg r2) by (apply (proj2 (reg_agree M D Gr) eg r1 r2); auto; exact (fresh_eqon _ _ _ _ _ _ R1 B4 Beg)).
        destruct (S4 q5 (proj1 (reg_agree M D Gr) b rho r2 Xb d3) de2) as [d8 d9].
        apply alld_app. split.
        * apply alld_app. split; [exact (alld_eqon _ _ _ _ _ _ (fun f Hf => proj1 (A5 f Hf)) FV13 A13 d5)|].
          apply alld_app. split; auto. exact (alld_eqon _ _ _ _ _ _ (fun f Hf => proj1 (B5 f Hf)) D4 S1 d7).
        * assert (dt3 : dF tg r3) by (apply (proj2 (reg_agree M D Gr) tg r1 r3); auto).
          assert (de3 : dF eg r3) by (apply (proj2 (reg_agree M D Gr) eg r1 r3); auto).
          assert (da3 : dE a' r3) by (apply (proj1 (reg_agree M D Gr) a' r2 r3); auto).
          intros f [<-|[<-|[]]]; [apply Dq1|apply Dq2]; auto.
  Qed.

  Lemma noite_q : (forall e, hasIteE e = false -> qplainE e) /\ (forall f, hasIteF f = false -> qplainF f).
  Proof.
    apply expr_formula_ind2; try (intros; exact I).
    - intros c ts H X. cbn [hasIteE qplainE] in *. induction H as [|[a k] ts Ha Hts IH]; cbn [fold_right existsb fst] in *; auto. apply orb_false_iff in X. destruct X. auto.
    - intros c ts H X. cbn [hasIteE qplainE] in *. induction H as [|[a k] ts [Ha Hk] Hts IH]; cbn [fold_right existsb fst snd] in *; auto. apply orb_false_iff in X. destruct X as [X ?]. apply orb_false_iff in X. destruct X. auto.
    - intros o a H X. exact (H X).
    - intros o a b H1 H2 X. cbn [hasIteE qplainE] in *. apply orb_false_iff in X. destruct X. auto.
    - intros f a b H1 H2 H3 X. discriminate.
    - intros o a b H1 H2 X. cbn [hasIteF qplainF] in *. apply orb_false_iff in X. destruct X. auto.
    - intros fs H X. cbn [hasIteF qplainF] in *. induction H as [|a ts Ha Hts IH]; cbn [fold_right existsb] in *; auto. apply orb_false_iff in X. destruct X. auto.
    - intros fs H X. cbn [hasIteF qplainF] in *. induction H as [|a ts Ha Hts IH]; cbn [fold_right existsb] in *; auto. apply orb_false_iff in X. destruct X. auto.
    - intros f H X. exact (H X).
    - intros vs f H X. exact X.
  Qed.

  (** Without if-then-else a formula keeps its comparisons. *)
  Lemma smap_plain fs : Forall (fun f => hasIteF f = false -> forall g s f' s', iteF fold K f g s = (f', s') ->
      it_vars s' = it_vars s /\ it_added s' = it_added s /\ forall G r, regF M D G f r -> regF M D G f' r) fs -> (forall f, In f fs -> hasIteF f = false) ->
    forall g s ops s', smap (fun h s => iteF fold K h g s) fs s = (ops, s') ->
      it_vars s' = it_vars s /\ it_added s' = it_added s /\ forall G r, (forall f, In f fs -> regF M D G f r) -> forall f, In f ops -> regF M D G f r.
  Proof.
    induction 1 as [|f fs Hf Hfs IH]; intros N g s ops s' E; cbn [smap] in E.
    - injection E as <- <-. repeat split; auto.
    - destruct (iteF fold K f g s) as [f' s1] eqn:Ef. destruct (smap _ fs s1) as [r s2] eqn:Er. injection E as <- <-.
      destruct (Hf (N f (or_introl eq_refl)) g s f' s1 Ef) as (A1 & A2 & A3). destruct (IH (fun f H => N f (or_intror H)) g s1 r s2 Er) as (B1 & B2 & B3).
      split; [congruence|]. split; [congruence|]. intros G rr H x [<-|Hx]; [apply A3, H; left; reflexivity|]. apply (B3 G rr); auto. intros y Hy. apply H. right. exact Hy.
  Qed.
  Lemma mk_forall_reg vs f G r : regF M D G (FForall vs f) r -> regF M D G (mk_forall vs f) r.
  Proof.
    intros H. unfold mk_forall. cbn [regF] in *. intros rho' Hoff Hty.
    apply (relax_fv M D vs); [intros v Hv Hin; apply filter_In; split; [exact Hin|apply mem_var_In; exact Hv]|].
    apply (proj2 (reg_agree M D (relax vs G)) f (fun v => if in_dec var_eq_dec v vs then (if in_dec var_eq_dec v (fvF f) then rho' v else 0%R) else rho' v)).
    - intros v Hv. destruct (in_dec var_eq_dec v vs); auto.
      destruct (in_dec var_eq_dec v (fvF f)); tauto.
    - apply H.
      + intros v Hv. destruct (in_dec var_eq_dec v vs); [tauto|].
        apply Hoff. intro X. apply filter_In in X. tauto.
      + intros v Hv. destruct (in_dec var_eq_dec v vs); [|tauto].
        destruct (in_dec var_eq_dec v (fvF f)); [|apply typed_val_inhabited].
        apply Hty, filter_In. split; auto. now apply mem_var_In.
  Qed.
  Lemma iteF_plain f : hasIteF f = false -> forall g s f' s', iteF fold K f g s = (f', s') ->
    it_vars s' = it_vars s /\ it_added s' = it_added s /\ forall G r, regF M D G f r -> regF M D G f' r.
  Proof.
    induction f as [| |v|o a b|fs IH|fs IH|f IH|vs f IH] using formula_ind'; intros N g s f' s' E.
    - injection E as <- <-. auto.
    - injection E as <- <-. auto.
    - injection E as <- <-. auto.
    - rewrite iteF_rel in E. cbn [hasIteF] in N. apply orb_false_iff in N. destruct N as [N1 N2]. rewrite !iteE_noite in E by assumption. injection E as <- <-.
      split; [reflexivity|]. split; [reflexivity|]. intros G r H. unfold mk_rel. destruct (fold a b) as [c|]; [destruct (relop_on o c); exact I|exact H].
    - rewrite (iteF_conn true) in E. destruct (smap _ fs s) as [ops s1] eqn:Eo. injection E as <- <-.
      destruct (smap_plain fs IH (proj1 (cA _ closed_ite fs) N) g s ops s1 Eo) as (A1 & A2 & A3). split; [exact A1|]. split; [exact A2|].
      intros G r H. apply (c_conj _ (closed_reg M D G r)). intros x Hx. apply (proj1 (fset_In _ _)) in Hx. apply (A3 G r); [|exact Hx]. exact (proj1 (cA _ (closed_reg M D G r) fs) H).
    - rewrite (iteF_conn false) in E. destruct (smap _ fs s) as [ops s1] eqn:Eo. injection E as <- <-.
      destruct (smap_plain fs IH (proj1 (cO _ closed_ite fs) N) g s ops s1 Eo) as (A1 & A2 & A3). split; [exact A1|]. split; [exact A2|].
      intros G r H. apply (c_disj _ (closed_reg M D G r)). intros x Hx. apply (proj1 (fset_In _ _)) in Hx. apply (A3 G r); [|exact Hx]. exact (proj1 (cO _ (closed_reg M D G r) fs) H).
    - rewrite iteF_not in E. destruct (iteF fold K f g s) as [h s1] eqn:Ef. injection E as <- <-. destruct (IH N g s h s1 Ef) as (A1 & A2 & A3).
      split; [exact A1|]. split; [exact A2|]. intros G r H. apply (c_not _ (closed_reg M D G r)). apply A3. exact H.
    - rewrite iteF_all in E. cbv zeta in E. fold (inner_state s) in E. fold (inner f (inner_state s)) in E.
      destruct (inner f (inner_state s)) as [h' s1] eqn:Ei. injection E as <- <-. cbn [it_vars it_added]. split; [reflexivity|]. split; [reflexivity|].
      destruct (inner_eq _ _ _ _ Ei) as (k' & Ek & Rk). destruct (IH N _ _ _ _ Ek) as (A1 & A2 & A3). cbn [inner_state it_vars it_added] in A1, A2.
      intros G r H. rewrite A1, app_nil_r. apply mk_forall_reg. cbn [regF] in *. intros r' Ao At. pose proof (A3 (relax vs G) r' (H r' Ao At)) as Hk.
      assert (Cl : forall P, closedP P -> P k' -> P (nnf fold false (mk_not (it_result (mk_not f) h' s1)) true)).
      { intros P C Pk. apply c_nnf; auto. apply c_not; auto. apply c_result; auto; [|rewrite A2; intros ? []]. destruct Rk as [<-| ->]; [apply (c_not P C)|apply (c_not P C)]; auto. }
      exact (Cl _ (closed_reg M D (relax vs G) r') Hk).
  Qed.

  Lemma all_case vs h : SF h -> SF (FForall vs h).
  Proof.
    intros IH g s f' s' E B Bg Ug Ig. rewrite iteF_all in E. cbv zeta in E. fold (inner_state s) in E. fold (inner h (inner_state s)) in E.
    destruct (inner h (inner_state s)) as [h' s1] eqn:Ei. injection E as <- <-.
    destruct (inner_eq _ _ _ _ Ei) as (k' & Ek & Rk). cbn [avF] in B. apply bnd_app in B. destruct B as [Bvs Bh].
    destruct (IH FTrue (inner_state s) k' s1 Ek Bh (fun v X => match X with end) (ro_true _) eq_refl) as (L & U & [Lg T]).
    cbn [it_next]. split; [exact L|].
    set (el := it_result (mk_not h) h' s1). set (N := nnf fold false (mk_not el) true).
    assert (Cl : forall P, closedP P -> P k' -> (forall f, In f (it_added s1) -> P f) -> P N).
    { intros P C Pk Pa. apply c_nnf; auto. apply c_not; auto. apply c_result; auto. destruct Rk as [<-| ->]; [apply (c_not P C)|apply (c_not P C)]; auto. }
    assert (Hh : forall r, hd h' r <-> ~ hd k' r).
    { intros r. destruct Rk as [<-| ->]; [rewrite mk_not_holds; destruct (classic (hd h' r)); tauto|apply mk_not_holds]. }
    assert (HN : forall r, hd N r <-> ~ (~ hd k' r /\ allh (it_added s1) r)).
    { intros r. unfold N. rewrite nnf_false_holds, mk_not_holds. unfold el. rewrite result_holds, Hh. reflexivity. }
    assert (OKE : okst {| it_next := it_next s1; it_vars := it_vars s; it_added := it_added s; it_nodes := it_nodes s1; it_cmps := it_cmps s1 |} -> okst s1) by (intros X; exact X).
    split.
    - intros Ok. apply OKE in Ok. destruct (T Ok) as (nv & na & (X1 & X2 & X3 & X4 & X5) & _). cbn [it_added inner_state app] in X3.
      unfold mk_forall. constructor. apply (Cl _ (closed_unf fold)); auto. rewrite X3. intros f Hf. apply (X5 f Hf).
    - split; [exact Lg|]. intros Ok. apply OKE in Ok. destruct (T Ok) as (nv & na & (X1 & X2 & X3 & X4 & X5) & W & Nf & Bw & Fw & Z).
      cbn [it_added it_vars it_next inner_state app] in X1, X2, X3, X4. cbn [nw nf same dor dnw qk ni itF] in *.
      exists [], []. rewrite X2.
      assert (S : forall rho, hd (mk_forall (vs ++ nv) N) rho <-> hd (FForall vs h) rho).
      { intros rho. rewrite mk_forall_holds. cbn [holds]. split; intros H r Ao At.
        - destruct (classic (hd h r)) as [|Hn]; auto. exfalso. destruct (Fw r) as (r' & P1 & P2 & P3 & _).
          assert (X : hd N r').
          { apply H.
            - intros v Hv. rewrite (P1 v), (Ao v); auto; intros Hw; apply Hv, in_or_app; auto.
            - intros v Hv. destruct (in_dec var_eq_dec v nv) as [Hw|Hw].
              + destruct (X4 v Hw) as [-> _]. exact I.
              + rewrite (P1 v Hw). apply At. apply in_app_or in Hv. tauto. }
          apply HN in X. apply X. rewrite X3. split; auto. tauto.
        - apply HN. intros [Hk Ha]. rewrite X3 in Ha. apply Hk. apply (Bw r I Ha).
          apply (holds_agree M h (fun v => if in_dec var_eq_dec v nv then rho v else r v) r).
          + intros v Hv. destruct (in_dec var_eq_dec v nv) as [Hw|Hw]; auto. exfalso. destruct (X4 v Hw). assert (vid v < it_next s) by (apply Bh; apply fv_av; auto). lia.
          + apply H.
            * intros v Hv. destruct (in_dec var_eq_dec v nv) as [Hw|Hw]; auto. apply Ao. intros Hv'. apply in_app_or in Hv'. tauto.
            * intros v Hv. destruct (in_dec var_eq_dec v nv) as [Hw|Hw].
              -- exfalso. destruct (X4 v Hw). specialize (Bvs v Hv). lia.
              -- apply At. apply in_or_app. auto. }
      split; [|split; [|split; [|split; [|split]]]].
      + split; [exact X1|]. cbn [it_vars it_added]. rewrite !app_nil_r. split; auto. split; auto. split; intros ? [].
      + cbn [nw itF it_next]. intros v Hv. unfold mk_forall in Hv. cbn [fvF] in Hv. apply filter_In in Hv. destruct Hv as [Hv _].
        revert v Hv. apply (Cl _ (closed_bnd (it_next s1))); auto. rewrite X3. intros f Hf. apply (X5 f Hf).
      + cbn [nf itF]. unfold mk_forall. cbn [hasIteF]. apply (Cl _ closed_ite); auto. rewrite X3. intros f Hf. apply (X5 f Hf).
      + intros rho _ _. apply S.
      + intros rho. exists rho. split; [intros v _; auto|]. split; [apply S|]. split; [intros f []|].
        cbn [qk dor dnw itF qplainF]. intros Hn Hd _. split; [|intros f []]. destruct (Z Hn) as [-> ->].
        apply mk_forall_def. rewrite app_nil_r. cbn [regF] in *. intros r Ao At. destruct (iteF_plain h Hn _ _ _ _ Ek) as (_ & _ & A3).
        apply (Cl _ (closed_reg M D (relax vs Gr) r)); [apply A3; exact (Hd r Ao At)|]. rewrite X3. intros f [].
      + auto.
  Qed.

  Theorem ite_spec : (forall e, SE e) /\ (forall f, SF f).
  Proof.
    apply expr_formula_ind2; try (intros; intros g s e' s' E B Bg Ug Ig; injection E as <- <-; split; [auto|apply Tr_skip; [reflexivity|apply av_fvE; auto]]; fail);
      try (intros; intros g s e' s' E B Bg Ug Ig; injection E as <- <-; split; [auto|split; [intros _; constructor|apply Tr_skipF; [reflexivity|apply av_fvF; auto]]]; fail).
    - apply add_case.
    - apply mul_case.
    - apply un_case.
    - apply bin_case.
    - intros. apply close_case; auto.
    - intros. apply rel_case; auto.
    - apply (conn_case true).
    - apply (conn_case false).
    - apply not_case.
    - apply all_case.
  Qed.

  Theorem process_reg f n f' s : ite_process fold K f n = (f', s) -> bnd n (avF f) ->
    (forall x, In x (it_nodes s) -> node_exact M D K x) -> (forall a b, In (a, b) (it_cmps s) -> cmp_exact M fold a b) ->
    n <= it_next s /\ bnd (it_next s) (fvF f') /\ hasIteF f' = false /\ unfolded fold f' /\
    (forall v, In v (it_vars s) -> vty v = CONTINUOUS /\ n <= vid v < it_next s) /\
    (forall rho, hd f rho <-> exists rho', agree_off (it_vars s) rho rho' /\ hd f' rho') /\
    (forall rho, qplainF f -> dF f rho -> hd f rho -> exists rho', agree_off (it_vars s) rho rho' /\ dF f' rho' /\ hd f' rho').
  Proof.
    intros E B O1 O2. unfold ite_process in E. destruct (iteF fold K f FTrue (it_init n)) as [k s1] eqn:Ek. injection E as <- <-.
    destruct (proj2 ite_spec f FTrue (it_init n) k s1 Ek B (fun v X => match X with end) (ro_true _) eq_refl) as (L & U & [_ T]).
    destruct (T (conj O1 O2)) as (nv & na & (X1 & X2 & X3 & X4 & X5) & W & Nf & Bw & Fw & Z). specialize (U (conj O1 O2)).
    cbn [it_added it_vars it_next it_init app] in X1, X2, X3, X4. cbn [nw nf same dor dnw qk ni itF] in *.
    assert (Cl : forall P, closedP P -> P k -> (forall f, In f na -> P f) -> P (it_result f k s1)).
    { intros P C Pk Pa. apply c_result; auto. rewrite X3. auto. }
    split; [exact X1|]. split; [apply (Cl _ (closed_bnd _)); auto; intros g Hg; apply (X5 g Hg)|].
    split; [apply (Cl _ closed_ite); auto; intros g Hg; apply (X5 g Hg)|].
    split; [apply (Cl _ (closed_unf fold)); auto; intros g Hg; apply (X5 g Hg)|].
    rewrite X2. split; [intros v Hv; apply X4; auto|]. split.
    - intros rho. split.
      + intros H. destruct (Fw rho) as (r & P1 & P2 & P3 & _). exists r. split; auto. apply result_holds. rewrite X3. split; auto. apply P2; auto.
      + intros (r & A & H). apply result_holds in H. rewrite X3 in H. destruct H as [H1 H2].
        apply (holds_agree M f rho r); [|apply (Bw r I H2); auto]. intros v Hv. symmetry. apply A. intros Hw. destruct (X4 v Hw) as [_ ?]. assert (vid v < n) by (apply B; apply fv_av; auto). lia.
    - intros rho Q Hd Hh. destruct (Fw rho) as (r & P1 & P2 & P3 & P4). destruct (P4 Q Hd I) as [P5 P6]. exists r. split; auto. split.
      + apply (Cl _ (closed_reg M D Gr r)); auto.
      + apply result_holds. rewrite X3. split; auto. apply P2; auto.
  Qed.
End Main.

Theorem process_spec M D fold K f n f' s : ite_process fold K f n = (f', s) -> bnd n (avF f) ->
  (forall x, In x (it_nodes s) -> node_exact M D K x) -> (forall a b, In (a, b) (it_cmps s) -> cmp_exact M fold a b) ->
  n <= it_next s /\ bnd (it_next s) (fvF f') /\ hasIteF f' = false /\ unfolded fold f' /\
  (forall v, In v (it_vars s) -> vty v = CONTINUOUS /\ n <= vid v < it_next s) /\
  (forall rho, holds M f rho <-> exists rho', agree_off (it_vars s) rho rho' /\ holds M f' rho') /\
  (forall rho, qplainF f -> solves M D f rho -> exists rho', agree_off (it_vars s) rho rho' /\ solves M D f' rho').
Proof.
  intros E B O1 O2. pose proof (process_reg M D fold K (fun _ _ _ _ _ => True) (fun _ _ _ _ => I) (fun _ _ _ _ _ _ _ _ _ _ => I) f n f' s E B O1 O2) as (P1 & P2 & P3 & P4 & P5 & P6 & P7).
  do 6 (split; [assumption|]). intros rho Q [Hd Hh]. destruct (P7 rho Q (proj2 (reg_true M D) f rho Hd) Hh) as (r & A & R & H).
  exists r. split; auto. split; auto. exact (proj2 (reg_def M D _) f' r R).
Qed.
