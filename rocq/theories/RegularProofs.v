From Coq Require Import ZArith Reals Lra Lia List Bool.
From Flocq Require Import IEEE754.BinarySingleNaN.
From Verif Require Import Dbl Syntax Sem SemProofs FormulaCons FormulaConsProofs Interval IEval Filter Regular.
Import ListNotations.

Section Reg.
  Variables (M : interp) (D : pdom).
  Lemma reg_agree' :
    (forall e G rho rho', (forall v, In v (fvE e) -> rho v = rho' v) -> regE M D G e rho -> regE M D G e rho') /\
    (forall f G rho rho', (forall v, In v (fvF f) -> rho v = rho' v) -> regF M D G f rho -> regF M D G f rho').
  Proof.
    apply expr_formula_ind2; try (intros; exact I).
    - intros c ts H G rho rho' A. cbn [regE fvE] in *.
      induction H as [|[a k] ts Ha Hts IH]; cbn [fold_right flat_map] in *; auto. cbn [fst] in Ha.
      intros [B C]. split; [apply (Ha G rho rho'); auto; intros; apply A; apply in_or_app; auto|apply IH; auto; intros; apply A; apply in_or_app; auto].
    - intros c ts H G rho rho' A. cbn [regE fvE] in *.
      induction H as [|[a k] ts [Ha Hk] Hts IH]; cbn [fold_right flat_map] in *; auto. cbn [fst snd] in Ha, Hk.
      assert (A1 : forall v, In v (fvE a) -> rho v = rho' v) by (intros; apply A; apply in_or_app; left; apply in_or_app; auto).
      assert (A2 : forall v, In v (fvE k) -> rho v = rho' v) by (intros; apply A; apply in_or_app; left; apply in_or_app; auto).
      rewrite (evalE_agree M a rho rho' A1), (evalE_agree M k rho rho' A2).
      intros [(B1 & B2 & B3) C]. split; [split; [apply (Ha G rho rho'); auto|split; [apply (Hk G rho rho'); auto|auto]]|].
      apply IH; auto. intros; apply A; apply in_or_app; auto.
    - intros o a IH G rho rho' A [B C]. cbn [regE fvE] in *. rewrite <- (evalE_agree M a rho rho' A). split; auto. apply (IH G rho rho'); auto.
    - intros o a b IH1 IH2 G rho rho' A (B & C & E). cbn [regE fvE] in *.
      assert (A1 : forall v, In v (fvE a) -> rho v = rho' v) by (intros; apply A; apply in_or_app; auto).
      assert (A2 : forall v, In v (fvE b) -> rho v = rho' v) by (intros; apply A; apply in_or_app; auto).
      rewrite <- (evalE_agree M a rho rho' A1), <- (evalE_agree M b rho rho' A2). split; [apply (IH1 G rho rho'); auto|]. split; auto. apply (IH2 G rho rho'); auto.
    - intros f a b IH0 IH1 IH2 G rho rho' A (B & C & E). cbn [regE fvE] in *.
      split; [apply (IH0 G rho rho'); auto; intros; apply A; apply in_or_app; auto|].
      split; [apply (IH1 G rho rho'); auto; intros; apply A|apply (IH2 G rho rho'); auto; intros; apply A]; apply in_or_app; right; apply in_or_app; auto.
    - intros o a b IH1 IH2 G rho rho' A ((B & C) & E). cbn [regF fvF] in *.
      assert (A1 : forall v, In v (fvE a) -> rho v = rho' v) by (intros; apply A; apply in_or_app; auto).
      assert (A2 : forall v, In v (fvE b) -> rho v = rho' v) by (intros; apply A; apply in_or_app; auto).
      rewrite <- (evalE_agree M a rho rho' A1), <- (evalE_agree M b rho rho' A2).
      split; auto. split; [apply (IH1 G rho rho')|apply (IH2 G rho rho')]; auto.
    - intros fs H G rho rho' A. cbn [regF fvF] in *.
      induction H as [|g fs Hg Hfs IH]; cbn [fold_right flat_map] in *; auto.
      intros [B C]. split; [apply (Hg G rho rho'); auto; intros; apply A; apply in_or_app; auto|apply IH; auto; intros; apply A; apply in_or_app; auto].
    - intros fs H G rho rho' A. cbn [regF fvF] in *.
      induction H as [|g fs Hg Hfs IH]; cbn [fold_right flat_map] in *; auto.
      intros [B C]. split; [apply (Hg G rho rho'); auto; intros; apply A; apply in_or_app; auto|apply IH; auto; intros; apply A; apply in_or_app; auto].
    - intros f IH G rho rho' A H. cbn [regF] in *. apply (IH G rho rho'); auto.
    - intros vs f IH G r r' A H. cbn [regF fvF] in *. intros sigma Hs Ht.
      apply (IH (relax vs G) (fun v => if mem_var v vs then sigma v else r v)).
      + intros v Hv. destruct (mem_var v vs) eqn:E; auto.
        rewrite (Hs v); [apply A; apply filter_In; rewrite E; auto|]. intros X. apply mem_var_In in X. congruence.
      + apply H.
        * intros v Hv. destruct (mem_var v vs) eqn:E; auto. apply mem_var_In in E. tauto.
        * intros v Hv. cbn beta. rewrite (proj2 (mem_var_In v vs) Hv). auto.
  Qed.

  Lemma reg_agree G :
    (forall e rho rho', (forall v, In v (fvE e) -> rho v = rho' v) -> regE M D G e rho -> regE M D G e rho') /\
    (forall f rho rho', (forall v, In v (fvF f) -> rho v = rho' v) -> regF M D G f rho -> regF M D G f rho').
  Proof. split; intros x; [apply (proj1 reg_agree')|apply (proj2 reg_agree')]. Qed.

  Lemma reg_def' : (forall e G rho, regE M D G e rho -> defE M D e rho) /\ (forall f G rho, regF M D G f rho -> defF M D f rho).
  Proof.
    apply expr_formula_ind2; try (intros; exact I); try (intros; cbn [regE regF defE defF] in *; intuition eauto; fail).
    - intros c ts H G rho. cbn [regE defE]. induction H as [|[a k] ts Ha Hts IH]; cbn [fold_right fst] in *; auto. intros [B C]; split; eauto.
    - intros c ts H G rho. cbn [regE defE]. induction H as [|[a k] ts [Ha Hk] Hts IH]; cbn [fold_right fst snd] in *; auto. intros [(B & B' & B'') C]; split; eauto.
    - intros f a b H0 H1 H2 G rho (A & B & C). split; [exact (H0 G rho A)|split; [exact (H1 G rho B)|exact (H2 G rho C)]].
    - intros o a b H1 H2 G rho X. destruct X as [[A B] _]. split; [exact (H1 G rho A)|exact (H2 G rho B)].
    - intros fs H G rho. cbn [regF defF]. induction H as [|a ts Ha Hts IH]; cbn [fold_right] in *; auto. intros [B C]; split; eauto.
    - intros fs H G rho. cbn [regF defF]. induction H as [|a ts Ha Hts IH]; cbn [fold_right] in *; auto. intros [B C]; split; eauto.
  Qed.
  Lemma reg_def G : (forall e rho, regE M D G e rho -> defE M D e rho) /\ (forall f rho, regF M D G f rho -> defF M D f rho).
  Proof. split; intros x; [apply (proj1 reg_def')|apply (proj2 reg_def')]. Qed.
  (** Without if-then-else terms a term has no comparison inside. *)
  Lemma reg_noite G e rho : hasIteE e = false -> (regE M D G e rho <-> defE M D e rho).
  Proof.
    revert e rho. refine (proj1 (expr_formula_ind2 (fun e => forall rho, hasIteE e = false -> (regE M D G e rho <-> defE M D e rho)) (fun _ => True) _ _ _ _ _ _ _ _ _ _ _ _ _ _ _ _ _)); auto; try (intros; cbn [regE defE]; tauto).
    - intros c ts H rho X. cbn [regE defE hasIteE] in *. induction H as [|[a k] ts Ha Hts IH]; cbn [fold_right existsb fst] in *; [tauto|]. apply orb_false_iff in X. destruct X as [X Y]. rewrite (Ha rho X), (IH Y). tauto.
    - intros c ts H rho X. cbn [regE defE hasIteE] in *. induction H as [|[a k] ts [Ha Hk] Hts IH]; cbn [fold_right existsb fst snd] in *; [tauto|]. apply orb_false_iff in X. destruct X as [X Y]. apply orb_false_iff in X. destruct X as [X X']. rewrite (Ha rho X), (Hk rho X'), (IH Y). tauto.
    - intros o a Ha rho X. cbn [regE defE hasIteE] in *. rewrite (Ha rho X). tauto.
    - intros o a b Ha Hb rho X. cbn [regE defE hasIteE] in *. apply orb_false_iff in X. destruct X as [X X']. rewrite (Ha rho X), (Hb rho X'). tauto.
    - intros f a b _ Ha Hb rho X. discriminate.
  Qed.
End Reg.
(** Only comparisons over the formula's variables matter. *)
Lemma reg_mono M D :
  (forall e (G G' : side) X rho, (forall o a b x y, incl (fvE a ++ fvE b) X -> G o a b x y -> G' o a b x y) -> incl (fvE e) X -> regE M D G e rho -> regE M D G' e rho) /\
  (forall f (G G' : side) X rho, (forall o a b x y, incl (fvE a ++ fvE b) X -> G o a b x y -> G' o a b x y) -> incl (fvF f) X -> regF M D G f rho -> regF M D G' f rho).
Proof.
  apply expr_formula_ind2; try (intros; exact I).
  - intros c ts H G G' X rho HG. cbn [regE fvE]. induction H as [|[a k] ts Ha Hts IH]; cbn [fold_right flat_map fst] in *; auto.
    intros I [B C]. apply incl_app_inv in I. destruct I as [I1 I2]. split; [exact (Ha G G' X rho HG I1 B)|exact (IH I2 C)].
  - intros c ts H G G' X rho HG. cbn [regE fvE]. induction H as [|[a k] ts [Ha Hk] Hts IH]; cbn [fold_right flat_map fst snd] in *; auto.
    intros I [(B1 & B2 & B3) C]. apply incl_app_inv in I. destruct I as [I1 I2]. apply incl_app_inv in I1. destruct I1 as [I0 I1].
    split; [split; [exact (Ha G G' X rho HG I0 B1)|split; [exact (Hk G G' X rho HG I1 B2)|exact B3]]|exact (IH I2 C)].
  - intros o a Ha G G' X rho HG I [B C]. split; [exact (Ha G G' X rho HG I B)|exact C].
  - intros o a b Ha Hb G G' X rho HG I (B & B' & C). cbn [fvE] in I. apply incl_app_inv in I. destruct I as [I1 I2].
    split; [exact (Ha G G' X rho HG I1 B)|]. split; [exact (Hb G G' X rho HG I2 B')|exact C].
  - intros f a b Hf Ha Hb G G' X rho HG I (B & B' & C). cbn [fvE] in I. apply incl_app_inv in I. destruct I as [I0 I]. apply incl_app_inv in I. destruct I as [I1 I2].
    split; [exact (Hf G G' X rho HG I0 B)|]. split; [exact (Ha G G' X rho HG I1 B')|exact (Hb G G' X rho HG I2 C)].
  - intros o a b Ha Hb G G' X rho HG I ((B & B') & C). cbn [fvF] in I. pose proof I as I'. apply incl_app_inv in I. destruct I as [I1 I2].
    split; [split; [exact (Ha G G' X rho HG I1 B)|exact (Hb G G' X rho HG I2 B')]|exact (HG _ _ _ _ _ I' C)].
  - intros fs H G G' X rho HG. cbn [regF fvF]. induction H as [|g fs Hg Hts IH]; cbn [fold_right flat_map] in *; auto.
    intros I [B C]. apply incl_app_inv in I. destruct I as [I1 I2]. split; [exact (Hg G G' X rho HG I1 B)|exact (IH I2 C)].
  - intros fs H G G' X rho HG. cbn [regF fvF]. induction H as [|g fs Hg Hts IH]; cbn [fold_right flat_map] in *; auto.
    intros I [B C]. apply incl_app_inv in I. destruct I as [I1 I2]. split; [exact (Hg G G' X rho HG I1 B)|exact (IH I2 C)].
  - intros f Hf G G' X rho HG I B. exact (Hf G G' X rho HG I B).
  - intros vs f Hf G G' X rho HG I B. cbn [regF fvF] in *. intros r Ao At. apply (Hf (relax vs G) (relax vs G') (X ++ vs) r); [| |exact (B r Ao At)].
    + intros o a b x y I' H Nv o'. apply HG; [|exact (H Nv o')]. intros v Hv. specialize (I' v Hv). apply in_app_or in I'. destruct I' as [I'|I']; [exact I'|]. destruct (Nv v Hv I').
    + intros v Hv. apply in_or_app. destruct (mem_var v vs) eqn:E; [right; apply mem_var_In; exact E|left]. apply I. apply filter_In. rewrite E. auto.
Qed.
Lemma relax_fv M D vs vs' G f rho : (forall v, In v (fvF f) -> In v vs -> In v vs') -> regF M D (relax vs G) f rho -> regF M D (relax vs' G) f rho.
Proof.
  intros H. apply (proj2 (reg_mono M D) f (relax vs G) (relax vs' G) (fvF f) rho); [|apply incl_refl].
  intros o a b x y I HG Nv o'. apply HG. intros v Hv Hin. exact (Nv v Hv (H v (I v Hv) Hin)).
Qed.
Lemma relax_none M D vs G f rho : (forall v, In v (fvF f) -> ~ In v vs) -> regF M D (relax vs G) f rho -> regF M D G f rho.
Proof.
  intros H. apply (proj2 (reg_mono M D) f (relax vs G) G (fvF f) rho); [|apply incl_refl].
  intros o a b x y I HG. apply HG. intros v Hv. exact (H v (I v Hv)).
Qed.
Definition trivial_side (G : side) : Prop := forall o a b x y, G o a b x y.
Lemma relax_trivial vs G : trivial_side G -> trivial_side (relax vs G).
Proof. intros H o a b x y _ o'. apply H. Qed.
Lemma reg_triv M D : (forall e G rho, trivial_side G -> defE M D e rho -> regE M D G e rho) /\ (forall f G rho, trivial_side G -> defF M D f rho -> regF M D G f rho).
Proof.
  apply expr_formula_ind2; try (intros; exact I); try (intros; cbn [regE regF defE defF] in *; intuition eauto; fail).
  - intros c ts H G rho Tr. cbn [regE defE]. induction H as [|[a k] ts Ha Hts IH]; cbn [fold_right fst] in *; auto. intros [B C]; auto.
  - intros c ts H G rho Tr. cbn [regE defE]. induction H as [|[a k] ts [Ha Hk] Hts IH]; cbn [fold_right fst snd] in *; auto. intros [(B & B' & B'') C]; auto.
  - intros f a b H0 H1 H2 G rho Tr (A & B & C). split; [exact (H0 G rho Tr A)|split; [exact (H1 G rho Tr B)|exact (H2 G rho Tr C)]].
  - intros o a b H1 H2 G rho Tr [A B]. split; [split; [exact (H1 G rho Tr A)|exact (H2 G rho Tr B)]|apply Tr].
  - intros fs H G rho Tr. cbn [regF defF]. induction H as [|a ts Ha Hts IH]; cbn [fold_right] in *; auto. intros [B C]; auto.
  - intros fs H G rho Tr. cbn [regF defF]. induction H as [|a ts Ha Hts IH]; cbn [fold_right] in *; auto. intros [B C]; auto.
  - intros vs g H G rho Tr A. cbn [regF defF] in *. intros r Ao At. apply H; [apply relax_trivial; exact Tr|]. apply A; assumption.
Qed.
Lemma reg_true M D : (forall e rho, defE M D e rho -> regE M D (fun _ _ _ _ _ => True) e rho) /\ (forall f rho, defF M D f rho -> regF M D (fun _ _ _ _ _ => True) f rho).
Proof. split; intros; [apply (proj1 (reg_triv M D))|apply (proj2 (reg_triv M D))]; auto; intros o a b x y; exact I. Qed.

Lemma off_gaps_eq a b x y : off_gaps REq a b x y. Proof. intros H. discriminate. Qed.
Lemma off_gaps_sub o a b a' b' x y : incl (consts_of a') (consts_of a) -> incl (consts_of b') (consts_of b) -> off_gaps o a b x y -> off_gaps o a' b' x y.
Proof. intros A B H I. destruct (H I) as [H1 H2]. split; auto. Qed.
Lemma off_gaps_neg o a b x y : off_gaps o a b x y -> off_gaps (neg_relop o) a b x y.
Proof. intros H I. apply H. destruct o; auto. Qed.
