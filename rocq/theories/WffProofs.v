(** Well-formedness is kept by if-then-else elimination, by the clausal conversion and by predicate abstraction. *)
From Coq Require Import ZArith Reals Lra Lia List Bool.
From Flocq Require Import IEEE754.BinarySingleNaN.
From Verif Require Import Dbl DblProofs Syntax Sem SemProofs FormulaCons FormulaConsProofs SpecForm Nnf NnfProofs PredAbs PredAbsProofs Tseitin TseitinProofs IEval Filter IteElim SpecIte IteElimProofs Regular RegularProofs Wff.
Import ListNotations.

Lemma body_mono (q q' : var -> Prop) f : bodyF q f -> (forall v, In v (fvF f) -> q v -> q' v) -> bodyF q' f.
Proof.
  induction f as [| |v|o a b|fs IH|fs IH|f IH|vs f IH] using formula_ind'; intros H Q; try contradiction; try exact I.
  - destruct H as (A & B & Cc). split; [exact A|]. split; [exact B|]. intros v Hv. apply Q; [exact Hv|apply Cc; exact Hv].
  - cbn [bodyF fvF] in *. induction IH as [|g fs Hg Hfs IH]; [exact I|]. cbn [fold_right flat_map] in *. destruct H as [H1 H2].
    split; [apply Hg; [exact H1|intros v Hv; apply Q, in_or_app; left; exact Hv]|apply IH; [exact H2|intros v Hv; apply Q, in_or_app; right; exact Hv]].
  - cbn [bodyF fvF] in *. induction IH as [|g fs Hg Hfs IH]; [exact I|]. cbn [fold_right flat_map] in *. destruct H as [H1 H2].
    split; [apply Hg; [exact H1|intros v Hv; apply Q, in_or_app; left; exact Hv]|apply IH; [exact H2|intros v Hv; apply Q, in_or_app; right; exact Hv]].
  - exact (IH H Q).
Qed.

Section B.
  Variable q : var -> Prop.
  Lemma closed_body : closedP (bodyF q).
  Proof. split; try exact I; try (intros gs; cbn [bodyF]; apply fold_and_all). intros g. apply iff_refl. Qed.
  Lemma body_fv f : bodyF q f -> forall v, In v (fvF f) -> q v.
  Proof.
    induction f as [| |v|o a b|fs IH|fs IH|f IH|vs f IH] using formula_ind'; intros H w Hw; try contradiction.
    - exact (proj2 (proj2 H) w Hw).
    - cbn [fvF] in Hw. apply in_flat_map in Hw. destruct Hw as (g & Hg & Hw). rewrite Forall_forall in IH. apply (IH g Hg); auto. apply (proj1 (cA _ closed_body fs)); auto.
    - cbn [fvF] in Hw. apply in_flat_map in Hw. destruct Hw as (g & Hg & Hw). rewrite Forall_forall in IH. apply (IH g Hg); auto. apply (proj1 (cO _ closed_body fs)); auto.
    - exact (IH H w Hw).
  Qed.
  Lemma body_ite f : bodyF q f -> hasIteF f = false.
  Proof.
    induction f as [| |v|o a b|fs IH|fs IH|f IH|vs f IH] using formula_ind'; intros H; try contradiction; try reflexivity.
    - destruct H as (_ & [A B] & _). cbn [hasIteF]. rewrite A, B. reflexivity.
    - rewrite Forall_forall in IH. apply (cA _ closed_ite). intros g Hg. apply IH; auto. apply (proj1 (cA _ closed_body fs)); auto.
    - rewrite Forall_forall in IH. apply (cO _ closed_ite). intros g Hg. apply IH; auto. apply (proj1 (cO _ closed_body fs)); auto.
    - exact (IH H).
  Qed.
  Lemma noite_avE : (forall e, hasIteE e = false -> avE e = fvE e) /\ (forall f : formula, True).
  Proof.
    apply expr_formula_ind2; try (intros; exact I); try reflexivity.
    - intros c ts H N. cbn [avE fvE hasIteE] in *. induction H as [|[a k] ts Ha Hts IH]; [reflexivity|]. cbn [existsb flat_map fst] in *.
      apply orb_false_iff in N. destruct N as [N1 N2]. rewrite (Ha N1), (IH N2). reflexivity.
    - intros c ts H N. cbn [avE fvE hasIteE] in *. induction H as [|[a k] ts [Ha Hk] Hts IH]; [reflexivity|]. cbn [existsb flat_map fst snd] in *.
      apply orb_false_iff in N. destruct N as [N1 N2]. apply orb_false_iff in N1. destruct N1 as [N1 N3]. rewrite (Ha N1), (Hk N3), (IH N2). reflexivity.
    - intros o a H N. exact (H N).
    - intros o a b Ha Hb N. cbn [avE fvE hasIteE] in *. apply orb_false_iff in N. destruct N as [N1 N2]. rewrite (Ha N1), (Hb N2). reflexivity.
    - intros f a b _ _ _ N. discriminate N.
  Qed.
  Lemma body_av f : bodyF q f -> avF f = fvF f.
  Proof.
    induction f as [| |v|o a b|fs IH|fs IH|f IH|vs f IH] using formula_ind'; intros H; try contradiction; try reflexivity.
    - destruct H as (_ & [A B] & _). cbn [avF fvF]. rewrite !(proj1 noite_avE) by assumption. reflexivity.
    - cbn [avF fvF bodyF] in *. induction IH as [|g fs Hg Hfs IH]; [reflexivity|]. cbn [fold_right flat_map] in *. destruct H as [H1 H2]. rewrite (Hg H1), (IH H2). reflexivity.
    - cbn [avF fvF bodyF] in *. induction IH as [|g fs Hg Hfs IH]; [reflexivity|]. cbn [fold_right flat_map] in *. destruct H as [H1 H2]. rewrite (Hg H1), (IH H2). reflexivity.
    - exact (IH H).
  Qed.
End B.

Section W.
  Variables q pv bq : var -> Prop.
  Notation wE := (wfE q pv bq). Notation wF := (wfF q pv bq).

  Lemma closed_wf : closedP wF.
  Proof. split; try exact I; try (intros gs; cbn [wfF]; apply fold_and_all). intros g. apply iff_refl. Qed.

  Lemma wf_fin : (forall e, wE e -> finE e) /\ (forall f : formula, True).
  Proof.
    apply expr_formula_ind2; try (intros; exact I); try (intros; assumption).
    - intros c ts H [A B]. cbn [wfE finE] in *. split; auto. clear A. induction H as [|[a k] ts Ha Hts IH]; cbn [fold_right] in *; auto.
      destruct B as [[B1 B2] B3]. split; [split; auto|auto]. 
    - intros c ts H [A B]. cbn [wfE finE] in *. split; auto. clear A. induction H as [|[a k] ts [Ha Hk] Hts IH]; cbn [fold_right] in *; auto.
      destruct B as [[B1 B2] B3]. split; [split; auto|auto].
    - intros o a IH H. exact (IH H).
    - intros o a b IH1 IH2 [A B]. split; auto.
    - intros f a b _ IH1 IH2 (A & B & C). split; auto.
  Qed.
  Lemma wfE_fin e : wE e -> finE e. Proof. apply wf_fin. Qed.
  Lemma wfF_fin f : wF f -> finF f.
  Proof. induction f as [| |v|o a b|fs IH|fs IH|f IH|vs f IH] using formula_ind'; cbn [wfF finF]; auto. intros [A B]. split; apply wfE_fin; auto. Qed.
  Lemma wfE_noite e : hasIteE e = false -> (wE e <-> finE e /\ forall v, In v (fvE e) -> q v).
  Proof.
    assert (X : (forall e, hasIteE e = false -> (wE e <-> finE e /\ forall v, In v (fvE e) -> q v)) /\ (forall f : formula, True)); [|apply X].
    apply expr_formula_ind2; try (intros; exact I).
    - intros c _. cbn. intuition.
    - intros a b u _. cbn. intuition.
    - intros v _. cbn. split; [intros H; split; auto; intros w [<-|[]]; auto|intros [_ H]; auto].
    - intros c ts H N. cbn [wfE finE fvE hasIteE] in *. induction H as [|[a k] ts Ha Hts IH]; [cbn; intuition|].
      apply orb_false_iff in N. destruct N as [N1 N2]. cbn [fst] in Ha. specialize (Ha N1). specialize (IH N2). cbn [fold_right flat_map].
      split.
      + intros (X & (Y & Y') & Z). destruct (proj1 IH (conj X Z)) as [I1 I2]. destruct (proj1 Ha Y). split; [tauto|].
        intros v Hv. apply in_app_or in Hv. destruct Hv; auto.
      + intros ((X & (Y & Y') & Z) & W). assert (W1 : forall v, In v (fvE a) -> q v) by (intros; apply W, in_or_app; auto).
        assert (W2 : forall v, In v (flat_map (fun p : expr * dbl => let (a, _) := p in fvE a) ts) -> q v) by (intros; apply W, in_or_app; auto). tauto.
    - intros c ts H N. cbn [wfE finE fvE hasIteE] in *. induction H as [|[a k] ts [Ha Hk] Hts IH]; [cbn; intuition|].
      apply orb_false_iff in N. destruct N as [N1 N2]. apply orb_false_iff in N1. destruct N1 as [N1 N3]. cbn [fst snd] in Ha, Hk. specialize (Ha N1). specialize (Hk N3). specialize (IH N2). cbn [fold_right flat_map].
      split.
      + intros (X & (Y & Y') & Z). destruct (proj1 IH (conj X Z)) as [I1 I2]. destruct (proj1 Ha Y), (proj1 Hk Y'). split; [tauto|].
        intros v Hv. apply in_app_or in Hv. destruct Hv as [Hv|]; auto. apply in_app_or in Hv. destruct Hv; auto.
      + intros ((X & (Y & Y') & Z) & W). assert (W1 : forall v, In v (fvE a) -> q v) by (intros; apply W, in_or_app; left; apply in_or_app; auto).
        assert (W3 : forall v, In v (fvE k) -> q v) by (intros; apply W, in_or_app; left; apply in_or_app; auto).
        assert (W2 : forall v, In v (flat_map (fun p : expr * expr => let (a, b) := p in fvE a ++ fvE b) ts) -> q v) by (intros; apply W, in_or_app; auto). tauto.
    - intros o a IH N. exact (IH N).
    - intros o a b IH1 IH2 N. cbn [wfE finE fvE hasIteE] in *. apply orb_false_iff in N. destruct N as [N1 N2]. rewrite (IH1 N1), (IH2 N2).
      split; [intros [[A B] [C D]]; split; auto; intros v Hv; apply in_app_or in Hv; destruct Hv; auto|].
      intros [[A B] C]. split; split; auto; intros; apply C, in_or_app; auto.
    - intros f a b _ _ _ N. discriminate.
    - intros n vs _. cbn. intuition.
  Qed.
  Lemma body_wf f : bodyF q f -> wF f.
  Proof.
    induction f as [| |v|o a b|fs IH|fs IH|f IH|vs f IH] using formula_ind'; intros H; try contradiction; try exact I.
    - destruct H as ([A B] & [N1 N2] & V). split; apply wfE_noite; auto; split; auto; intros v Hv; apply V, in_or_app; auto.
    - rewrite Forall_forall in IH. apply (cA _ closed_wf). intros g Hg. apply IH; auto. apply (proj1 (cA _ (closed_body q) fs)); auto.
    - rewrite Forall_forall in IH. apply (cO _ closed_wf). intros g Hg. apply IH; auto. apply (proj1 (cO _ (closed_body q) fs)); auto.
    - exact (IH H).
  Qed.
  Lemma wf_fv : (forall e, wE e -> forall v, In v (fvE e) -> q v \/ pv v) /\ (forall f, wF f -> forall v, In v (fvF f) -> q v \/ pv v).
  Proof.
    apply expr_formula_ind2; try (intros; cbn [fvE fvF] in *; contradiction).
    - intros v H w [<-|[]]. auto.
    - intros c ts H [_ W] v Hv. cbn [fvE] in Hv. induction H as [|[a k] ts Ha Hts IH]; cbn [fold_right flat_map] in *; [contradiction|].
      destruct W as [[W1 _] W2]. apply in_app_or in Hv. destruct Hv; auto.
    - intros c ts H [_ W] v Hv. cbn [fvE] in Hv. induction H as [|[a k] ts [Ha Hk] Hts IH]; cbn [fold_right flat_map] in *; [contradiction|].
      destruct W as [[W1 W3] W2]. apply in_app_or in Hv. destruct Hv as [Hv|]; auto. apply in_app_or in Hv. destruct Hv; auto.
    - intros o a IH H v Hv. exact (IH H v Hv).
    - intros o a b IH1 IH2 [A B] v Hv. cbn [fvE] in Hv. apply in_app_or in Hv. destruct Hv; auto.
    - intros f a b IH0 IH1 IH2 (A & B & C) v Hv. cbn [fvE] in Hv. apply in_app_or in Hv. destruct Hv as [|Hv]; auto. apply in_app_or in Hv. destruct Hv; auto.
    - intros n vs H v Hv. left. apply H; auto.
    - intros v H w [<-|[]]. auto.
    - intros o a b IH1 IH2 [A B] v Hv. cbn [fvF] in Hv. apply in_app_or in Hv. destruct Hv; auto.
    - intros fs IH H v Hv. cbn [fvF] in Hv. apply in_flat_map in Hv. destruct Hv as (g & Hg & Hv). rewrite Forall_forall in IH. apply (IH g Hg); auto. apply (proj1 (cA _ closed_wf fs)); auto.
    - intros fs IH H v Hv. cbn [fvF] in Hv. apply in_flat_map in Hv. destruct Hv as (g & Hg & Hv). rewrite Forall_forall in IH. apply (IH g Hg); auto. apply (proj1 (cO _ closed_wf fs)); auto.
    - intros f IH H v Hv. exact (IH H v Hv).
    - intros vs f _ [_ H] v Hv. cbn [fvF] in Hv. apply filter_In in Hv. destruct Hv as [Hv Nv]. destruct (body_fv _ f H v Hv) as [Q|Q]; [left; exact Q|].
      apply mem_var_In in Q. rewrite Q in Nv. discriminate.
  Qed.
  Lemma wf_av : (forall e, wE e -> forall v, In v (avE e) -> q v \/ pv v \/ bq v) /\ (forall f, wF f -> forall v, In v (avF f) -> q v \/ pv v \/ bq v).
  Proof.
    apply expr_formula_ind2; try (intros; cbn [avE avF] in *; contradiction).
    - intros v H w [<-|[]]. auto.
    - intros c ts H [_ W] v Hv. cbn [avE] in Hv. induction H as [|[a k] ts Ha Hts IH]; cbn [fold_right flat_map] in *; [contradiction|].
      destruct W as [[W1 _] W2]. apply in_app_or in Hv. destruct Hv; auto.
    - intros c ts H [_ W] v Hv. cbn [avE] in Hv. induction H as [|[a k] ts [Ha Hk] Hts IH]; cbn [fold_right flat_map] in *; [contradiction|].
      destruct W as [[W1 W3] W2]. apply in_app_or in Hv. destruct Hv as [Hv|]; auto. apply in_app_or in Hv. destruct Hv; auto.
    - intros o a IH H v Hv. exact (IH H v Hv).
    - intros o a b IH1 IH2 [A B] v Hv. cbn [avE] in Hv. apply in_app_or in Hv. destruct Hv; auto.
    - intros f a b IH0 IH1 IH2 (A & B & C) v Hv. cbn [avE] in Hv. apply in_app_or in Hv. destruct Hv as [|Hv]; auto. apply in_app_or in Hv. destruct Hv; auto.
    - intros n vs H v Hv. left. apply H; auto.
    - intros v H w [<-|[]]. auto.
    - intros o a b IH1 IH2 [A B] v Hv. cbn [avF] in Hv. apply in_app_or in Hv. destruct Hv; auto.
    - intros fs IH H v Hv. cbn [avF] in Hv. apply in_flat_map in Hv. destruct Hv as (g & Hg & Hv). rewrite Forall_forall in IH. apply (IH g Hg); auto. apply (proj1 (cA _ closed_wf fs)); auto.
    - intros fs IH H v Hv. cbn [avF] in Hv. apply in_flat_map in Hv. destruct Hv as (g & Hg & Hv). rewrite Forall_forall in IH. apply (IH g Hg); auto. apply (proj1 (cO _ closed_wf fs)); auto.
    - intros f IH H v Hv. exact (IH H v Hv).
    - intros vs f _ [[_ Bv] H] v Hv. cbn [avF] in Hv. apply in_app_or in Hv. destruct Hv as [Hv|Hv]; [right; right; apply Bv; exact Hv|].
      rewrite (body_av _ f H) in Hv. destruct (body_fv _ f H v Hv) as [Q|Q]; [left; exact Q|right; right; apply Bv; exact Q].
  Qed.
  Lemma wf_q : (forall e, wE e -> qplainE e) /\ (forall f, wF f -> qplainF f).
  Proof.
    apply expr_formula_ind2; try (intros; exact I).
    - intros c ts H [_ W]. cbn [qplainE]. induction H as [|[a k] ts Ha Hts IH]; cbn [fold_right] in *; auto. destruct W as [[W1 _] W2]. exact (conj (Ha W1) (IH W2)).
    - intros c ts H [_ W]. cbn [qplainE]. induction H as [|[a k] ts [Ha Hk] Hts IH]; cbn [fold_right] in *; auto. destruct W as [[W1 W3] W2]. exact (conj (conj (Ha W1) (Hk W3)) (IH W2)).
    - intros o a IH H. exact (IH H).
    - intros o a b IH1 IH2 [A B]. exact (conj (IH1 A) (IH2 B)).
    - intros f a b IH0 IH1 IH2 (A & B & C). exact (conj (IH0 A) (conj (IH1 B) (IH2 C))).
    - intros o a b IH1 IH2 [A B]. exact (conj (IH1 A) (IH2 B)).
    - intros fs IH H. cbn [qplainF wfF] in *. induction IH as [|g fs Hg Hfs IH]; cbn [fold_right] in *; auto. destruct H as [H1 H2]. exact (conj (Hg H1) (IH H2)).
    - intros fs IH H. cbn [qplainF wfF] in *. induction IH as [|g fs Hg Hfs IH]; cbn [fold_right] in *; auto. destruct H as [H1 H2]. exact (conj (Hg H1) (IH H2)).
    - intros f IH H. exact (IH H).
    - intros vs f _ [_ H]. exact (body_ite _ f H).
  Qed.
End W.

Lemma wf_mono (q q' pv pv' bq bq' : var -> Prop) : (forall v, q v -> q' v) -> (forall v, pv v -> pv' v) -> (forall v, bq v -> bq' v) ->
  (forall e, wfE q pv bq e -> wfE q' pv' bq' e) /\ (forall f, wfF q pv bq f -> wfF q' pv' bq' f).
Proof.
  intros Q P Bq. apply expr_formula_ind2; try (intros; cbn [wfE wfF] in *; auto; fail).
  - intros c ts H [A B]. cbn [wfE] in *. split; auto. clear A. induction H as [|[a k] ts Ha Hts IH]; cbn [fold_right] in *; auto.
    destruct B as [[B1 B2] B3]. split; [split; auto|auto].
  - intros c ts H [A B]. cbn [wfE] in *. split; auto. clear A. induction H as [|[a k] ts [Ha Hk] Hts IH]; cbn [fold_right] in *; auto.
    destruct B as [[B1 B2] B3]. split; [split; auto|auto].
  - intros o a b IH1 IH2 [A B]. exact (conj (IH1 A) (IH2 B)).
  - intros f a b IH0 IH1 IH2 (A & B & C). exact (conj (IH0 A) (conj (IH1 B) (IH2 C))).
  - intros o a b IH1 IH2 [A B]. exact (conj (IH1 A) (IH2 B)).
  - intros fs IH H. rewrite Forall_forall in IH. apply (cA _ (closed_wf q' pv' bq')). intros g Hg. apply IH; auto. apply (proj1 (cA _ (closed_wf q pv bq) fs)); auto.
  - intros fs IH H. rewrite Forall_forall in IH. apply (cO _ (closed_wf q' pv' bq')). intros g Hg. apply IH; auto. apply (proj1 (cO _ (closed_wf q pv bq) fs)); auto.
  - intros vs f _ [[[v0 E] Bv] H]. split; [split; [exists v0; auto|intros v Hv; auto]|]. apply (body_mono _ _ f H). intros v _ [X|X]; auto.
Qed.

(** ** If-then-else elimination *)
Section Ite.
  Variables (q pv bq : var -> Prop) (fold : expr -> expr -> option dbl) (K : eops).
  Notation wE := (wfE q pv bq). Notation wF := (wfF q pv bq).
  (** Rebuilding a node keeps literals finite and adds no variable. *)
  Definition node_wf (n : expr) : Prop :=
    (finE n -> finE (rebuild K n)) /\ incl (fvE (rebuild K n)) (fvE n) /\ (hasIteE n = false -> hasIteE (rebuild K n) = false).
  Definition good (s : it_state) : Prop := (forall v, In v (it_vars s) -> q v) /\ (forall n, In n (it_nodes s) -> node_wf n).
  Definition grow (s s' : it_state) : Prop := incl (it_vars s) (it_vars s') /\ incl (it_nodes s) (it_nodes s').
  Lemma grow_refl s : grow s s. Proof. split; apply incl_refl. Qed.
  Lemma grow_trans a b c : grow a b -> grow b c -> grow a c. Proof. intros [A B] [C D]. split; eapply incl_tran; eauto. Qed.
  Lemma good_grow s s' : grow s s' -> good s' -> good s. Proof. intros [A B] [C D]. split; auto. Qed.
  Definition addok (s : it_state) : Prop := forall f, In f (it_added s) -> wF f.
  Definition neE (e : expr) : Prop := wE e /\ hasIteE e = false.
  Definition WE (e : expr) : Prop := forall g s e' s', iteE fold K e g s = (e', s') ->
    grow s s' /\ (wE e -> wF g -> good s' -> addok s -> neE e' /\ addok s').
  Definition WF (f : formula) : Prop := forall g s f' s', iteF fold K f g s = (f', s') ->
    grow s s' /\ (wF f -> wF g -> good s' -> addok s -> wF f' /\ addok s').

  Lemma mk_rel_wf o a b : wE a -> wE b -> wF (mk_rel fold o a b).
  Proof. intros A B. unfold mk_rel. destruct (fold a b) as [c|]; [destruct (relop_on o c); exact I|split; auto]. Qed.
  Lemma it_node_wf n s : addok s -> wE n -> hasIteE n = false -> good (it_log_node n s) -> neE (rebuild K n) /\ addok (it_log_node n s).
  Proof.
    intros A W N [_ G]. destruct (G n (or_introl eq_refl)) as (X1 & X2 & X3). split; [|exact A]. split; auto.
    apply wfE_noite; auto. apply (wfE_noite q pv bq n N) in W. destruct W as [W1 W2]. split; auto.
  Qed.
  Lemma log_grow n s : grow s (it_log_node n s). Proof. split; [apply incl_refl|apply incl_tl, incl_refl]. Qed.

  Lemma goA_wf c ts : Forall (fun p => WE (fst p)) ts -> forall g s ts' s', goA fold K g ts s = (ts', s') ->
    grow s s' /\ (wE (EAdd c ts) -> wF g -> good s' -> addok s -> neE (EAdd c ts') /\ addok s').
  Proof.
    induction 1 as [|[a k] ts Ha Hts IH]; intros g s ts' s' E; cbn [goA] in E.
    - injection E as <- <-. split; [apply grow_refl|]. intros W _ _ A. split; [split; auto|exact A].
    - destruct (iteE fold K a g s) as [a' s1] eqn:Ea. destruct (goA fold K g ts s1) as [r s2] eqn:Er. injection E as <- <-.
      cbn [fst] in Ha. destruct (Ha g s a' s1 Ea) as [G1 H1]. destruct (IH g s1 r s2 Er) as [G2 H2]. split; [eapply grow_trans; eauto|].
      intros (W0 & (W1 & W2) & W3) Wg G A. destruct (H1 W1 Wg (good_grow _ _ G2 G) A) as [[N1 N2] A1].
      destruct (H2 (conj W0 W3) Wg G A1) as [[[N3 N4] N5] A2]. split; [|exact A2]. split.
      + cbn [wfE fold_right]. auto.
      + cbn [hasIteE existsb] in *. rewrite N2, N5. reflexivity.
  Qed.
  Lemma goM_wf c ts : Forall (fun p => WE (fst p) /\ WE (snd p)) ts -> forall g s ts' s', goM fold K g ts s = (ts', s') ->
    grow s s' /\ (wE (EMul c ts) -> wF g -> good s' -> addok s -> neE (EMul c ts') /\ addok s').
  Proof.
    induction 1 as [|[a b] ts [Ha Hb] Hts IH]; intros g s ts' s' E; cbn [goM] in E.
    - injection E as <- <-. split; [apply grow_refl|]. intros W _ _ A. split; [split; auto|exact A].
    - destruct (iteE fold K a g s) as [a' s1] eqn:Ea. destruct (iteE fold K b g s1) as [b' s1'] eqn:Eb. destruct (goM fold K g ts s1') as [r s2] eqn:Er. injection E as <- <-.
      cbn [fst snd] in Ha, Hb. destruct (Ha g s a' s1 Ea) as [G1 H1]. destruct (Hb g s1 b' s1' Eb) as [G1' H1']. destruct (IH g s1' r s2 Er) as [G2 H2].
      split; [eapply grow_trans; [|eapply grow_trans]; eauto|].
      intros (W0 & (W1 & W2) & W3) Wg G A. assert (G' := good_grow _ _ G2 G). destruct (H1 W1 Wg (good_grow _ _ G1' G') A) as [[N1 N2] A1].
      destruct (H1' W2 Wg G' A1) as [[M1 M2] A1'].
      destruct (H2 (conj W0 W3) Wg G A1') as [[[N3 N4] N5] A2]. split; [|exact A2]. split.
      + cbn [wfE fold_right]. auto.
      + cbn [hasIteE existsb] in *. rewrite N2, M2, N5. reflexivity.
  Qed.

  Lemma smap_wf (b : bool) fs : Forall WF fs -> forall g s ops s', smap (fun h s => iteF fold K h g s) fs s = (ops, s') ->
    grow s s' /\ (wF (conn b fs) -> wF g -> good s' -> addok s -> wF (conn b ops) /\ addok s').
  Proof.
    induction 1 as [|f fs Hf Hfs IH]; intros g s ops s' E; cbn [smap] in E.
    - injection E as <- <-. split; [apply grow_refl|]. intros W _ _ A. split; auto.
    - destruct (iteF fold K f g s) as [f' s1] eqn:Ef. destruct (smap _ fs s1) as [r s2] eqn:Er. injection E as <- <-.
      destruct (Hf g s f' s1 Ef) as [G1 H1]. destruct (IH g s1 r s2 Er) as [G2 H2]. split; [eapply grow_trans; eauto|].
      intros W Wg G A. assert (W' : wF f /\ wF (conn b fs)) by (destruct b; exact W). destruct W' as [W1 W2].
      destruct (H1 W1 Wg (good_grow _ _ G2 G) A) as [N1 A1]. destruct (H2 W2 Wg G A1) as [N2 A2]. split; [|exact A2]. destruct b; split; auto.
  Qed.

  Lemma noite_skip e g s e' s' : hasIteE e = false -> iteE fold K e g s = (e', s') -> e' = e /\ s' = s.
  Proof. intros N E. rewrite iteE_noite in E by exact N. injection E as <- <-. auto. Qed.

  (** Without if-then-else and quantifiers nothing is added. *)
  Lemma smap_flat (P : formula -> Prop) fs : Forall (fun f => hasIteF f = false -> P f -> forall g s f' s', iteF fold K f g s = (f', s') -> it_vars s' = it_vars s /\ it_added s' = it_added s /\ P f') fs ->
    (forall f, In f fs -> hasIteF f = false /\ P f) -> forall g s ops s', smap (fun h s => iteF fold K h g s) fs s = (ops, s') ->
      it_vars s' = it_vars s /\ it_added s' = it_added s /\ forall f, In f ops -> P f.
  Proof.
    induction 1 as [|f fs Hf Hfs IH]; intros N g s ops s' E; cbn [smap] in E.
    - injection E as <- <-. repeat split; auto. intros ? [].
    - destruct (iteF fold K f g s) as [f' s1] eqn:Ef. destruct (smap _ fs s1) as [r s2] eqn:Er. injection E as <- <-.
      destruct (N f (or_introl eq_refl)) as [N1 N2]. destruct (Hf N1 N2 g s f' s1 Ef) as (A1 & A2 & A3). destruct (IH (fun f H => N f (or_intror H)) g s1 r s2 Er) as (B1 & B2 & B3).
      split; [congruence|]. split; [congruence|]. intros x [<-|Hx]; auto.
  Qed.
  Lemma iteF_flat (P : formula -> Prop) : closedP P -> (forall vs g, ~ P (FForall vs g)) -> forall f, hasIteF f = false -> P f -> forall g s f' s', iteF fold K f g s = (f', s') ->
    it_vars s' = it_vars s /\ it_added s' = it_added s /\ P f'.
  Proof.
    intros C NA. induction f as [| |v|o a b|fs IH|fs IH|f IH|vs f IH] using formula_ind'; intros N Pf g s f' s' E.
    - injection E as <- <-. auto.
    - injection E as <- <-. auto.
    - injection E as <- <-. auto.
    - rewrite iteF_rel in E. cbn [hasIteF] in N. apply orb_false_iff in N. destruct N as [N1 N2]. rewrite !iteE_noite in E by assumption. injection E as <- <-.
      split; [reflexivity|]. split; [reflexivity|]. unfold mk_rel. destruct (fold a b) as [c|]; [destruct (relop_on o c); [apply (cT P C)|apply (cF P C)]|exact Pf].
    - rewrite (iteF_conn fold K true) in E. destruct (smap _ fs s) as [ops s1] eqn:Eo. injection E as <- <-.
      destruct (smap_flat P fs IH (fun f H => conj (proj1 (cA _ closed_ite fs) N f H) (proj1 (cA P C fs) Pf f H)) g s ops s1 Eo) as (A1 & A2 & A3). split; [exact A1|]. split; [exact A2|].
      apply (c_conj P C). intros x Hx. apply (proj1 (fset_In _ _)) in Hx. exact (A3 x Hx).
    - rewrite (iteF_conn fold K false) in E. destruct (smap _ fs s) as [ops s1] eqn:Eo. injection E as <- <-.
      destruct (smap_flat P fs IH (fun f H => conj (proj1 (cO _ closed_ite fs) N f H) (proj1 (cO P C fs) Pf f H)) g s ops s1 Eo) as (A1 & A2 & A3). split; [exact A1|]. split; [exact A2|].
      apply (c_disj P C). intros x Hx. apply (proj1 (fset_In _ _)) in Hx. exact (A3 x Hx).
    - rewrite iteF_not in E. destruct (iteF fold K f g s) as [h s1] eqn:Ef. injection E as <- <-. destruct (IH N (proj1 (cN P C f) Pf) g s h s1 Ef) as (A1 & A2 & A3).
      split; [exact A1|]. split; [exact A2|]. apply (c_not P C). exact A3.
    - destruct (NA _ _ Pf).
  Qed.
  Lemma mk_forall_wf vs h : ((exists v, bq v) /\ forall v, In v vs -> bq v) -> bodyF (fun v => q v \/ In v vs) h -> wF (mk_forall vs h).
  Proof.
    intros [B1 B2] H. unfold mk_forall. cbn [wfF]. split; [split; [exact B1|intros v Hv; apply filter_In in Hv; apply B2, Hv]|].
    apply (body_mono _ _ h H). intros v Hv [X|X]; [left; exact X|right]. apply filter_In. split; [exact X|apply mem_var_In; exact Hv].
  Qed.

  Theorem ite_static : (forall e, WE e) /\ (forall f, WF f).
  Proof.
    assert (Skip : forall e, hasIteE e = false -> WE e).
    { intros e N g s e' s' E. destruct (noite_skip _ _ _ _ _ N E) as [-> ->]. split; [apply grow_refl|]. intros W _ _ A. split; [split; auto|exact A]. }
    apply expr_formula_ind2.
    - intros. apply Skip. reflexivity.
    - intros. apply Skip. reflexivity.
    - intros. apply Skip. reflexivity.
    - intros c ts H. destruct (hasIteE (EAdd c ts)) eqn:N; [|apply Skip; exact N]. intros g s e' s' E. rewrite iteE_add in E by exact N.
      destruct (goA fold K g ts s) as [ts' s1] eqn:E1. injection E as <- <-. destruct (goA_wf c ts H g s ts' s1 E1) as [G1 H1].
      split; [eapply grow_trans; [exact G1|apply log_grow]|]. intros W Wg G A.
      destruct (H1 W Wg (good_grow _ _ (log_grow _ _) G) A) as [[N1 N2] A1]. exact (it_node_wf (EAdd c ts') s1 A1 N1 N2 G).
    - intros c ts H. destruct (hasIteE (EMul c ts)) eqn:N; [|apply Skip; exact N]. intros g s e' s' E. rewrite iteE_mul in E by exact N.
      destruct (goM fold K g ts s) as [ts' s1] eqn:E1. injection E as <- <-. destruct (goM_wf c ts H g s ts' s1 E1) as [G1 H1].
      split; [eapply grow_trans; [exact G1|apply log_grow]|]. intros W Wg G A.
      destruct (H1 W Wg (good_grow _ _ (log_grow _ _) G) A) as [[N1 N2] A1]. exact (it_node_wf (EMul c ts') s1 A1 N1 N2 G).
    - intros o a H. destruct (hasIteE (EUn o a)) eqn:N; [|apply Skip; exact N]. intros g s e' s' E. rewrite iteE_un in E by exact N.
      destruct (iteE fold K a g s) as [a' s1] eqn:E1. injection E as <- <-. destruct (H g s a' s1 E1) as [G1 H1].
      split; [eapply grow_trans; [exact G1|apply log_grow]|]. intros W Wg G A.
      destruct (H1 W Wg (good_grow _ _ (log_grow _ _) G) A) as [[N1 N2] A1]. exact (it_node_wf (EUn o a') s1 A1 N1 N2 G).
    - intros o a b Ha Hb. destruct (hasIteE (EBin o a b)) eqn:N; [|apply Skip; exact N]. intros g s e' s' E. rewrite iteE_bin in E by exact N.
      destruct (iteE fold K a g s) as [a' s1] eqn:E1. destruct (iteE fold K b g s1) as [b' s2] eqn:E2. injection E as <- <-.
      destruct (Ha g s a' s1 E1) as [G1 H1]. destruct (Hb g s1 b' s2 E2) as [G2 H2].
      split; [eapply grow_trans; [exact G1|eapply grow_trans; [exact G2|apply log_grow]]|]. intros [W1 W2] Wg G A. assert (G' := good_grow _ _ (log_grow _ _) G).
      destruct (H1 W1 Wg (good_grow _ _ G2 G') A) as [[N1 N2] A1]. destruct (H2 W2 Wg G' A1) as [[N3 N4] A2].
      apply (it_node_wf (EBin o a' b') s2 A2); auto. { split; auto. } cbn [hasIteE]. rewrite N2, N4. reflexivity.
    - intros c a b Hc Ha Hb g s e' s' E. rewrite iteE_ite in E. unfold it_fresh in E. cbv zeta in E.
      set (s0 := {| it_next := S (it_next s); it_vars := it_vars s ++ [mkVar (it_next s) CONTINUOUS]; it_added := it_added s; it_nodes := it_nodes s; it_cmps := it_cmps s |}) in E.
      assert (G0 : grow s s0) by (split; [apply incl_appl, incl_refl|apply incl_refl]).
      destruct (iteF fold K c g s0) as [c' s1] eqn:E0.
      destruct (iteE fold K a (mk_and g c') s1) as [a' s2] eqn:E1.
      destruct (iteE fold K b (mk_and g (mk_not c')) s2) as [b' s3] eqn:E2.
      destruct (Hc g s0 c' s1 E0) as [Gc H0]. destruct (Ha _ _ _ _ E1) as [Ga H1]. destruct (Hb _ _ _ _ E2) as [Gb H2].
      unfold it_close, it_rel in E. injection E as <- <-.
      assert (G3 : grow s s3) by (eapply grow_trans; [exact G0|eapply grow_trans; [exact Gc|eapply grow_trans; eauto]]).
      split; [exact G3|]. intros (W0 & W1 & W2) Wg G A.
      assert (G' : good s3) by exact G. assert (Gd2 := good_grow _ _ Gb G'). assert (Gd1 := good_grow _ _ Ga Gd2).
      destruct (H0 W0 Wg Gd1 A) as [N0 A1].
      assert (Wt : wF (mk_and g c')) by (apply (c_and _ (closed_wf q pv bq)); auto).
      assert (We : wF (mk_and g (mk_not c'))) by (apply (c_and _ (closed_wf q pv bq)); auto; apply (c_not _ (closed_wf q pv bq)); auto).
      destruct (H1 W1 Wt Gd2 A1) as [[N1 _] A2]. destruct (H2 W2 We G' A2) as [[N2 _] A3].
      assert (Qv : q (mkVar (it_next s) CONTINUOUS)).
      { apply (proj1 (good_grow _ _ (grow_trans _ _ _ Gc (grow_trans _ _ _ Ga Gb)) G')). cbn [s0 it_vars]. apply in_or_app. right. left. reflexivity. }
      split; [split; [exact Qv|reflexivity]|]. intros f Hf. cbn [it_added it_push it_log_cmp] in Hf.
      apply in_app_or in Hf. destruct Hf as [Hf|[<-|[]]]; [apply in_app_or in Hf; destruct Hf as [Hf|[<-|[]]]; [apply A3; exact Hf|]|];
        (apply (c_or _ (closed_wf q pv bq)); [apply (c_not _ (closed_wf q pv bq)); auto|apply mk_rel_wf; auto]).
    - intros. apply Skip. reflexivity.
    - intros g s e' s' E. injection E as <- <-. split; [apply grow_refl|auto].
    - intros g s e' s' E. injection E as <- <-. split; [apply grow_refl|auto].
    - intros v g s e' s' E. injection E as <- <-. split; [apply grow_refl|auto].
    - intros o a b Ha Hb g s e' s' E. rewrite iteF_rel in E.
      destruct (iteE fold K a g s) as [a' s1] eqn:E1. destruct (iteE fold K b g s1) as [b' s2] eqn:E2. injection E as <- <-.
      destruct (Ha g s a' s1 E1) as [G1 H1]. destruct (Hb g s1 b' s2 E2) as [G2 H2]. split; [exact (grow_trans _ _ _ G1 G2)|].
      intros [W1 W2] Wg G A. destruct (H1 W1 Wg (good_grow _ _ G2 G) A) as [[N1 _] A1]. destruct (H2 W2 Wg G A1) as [[N2 _] A2].
      split; [apply mk_rel_wf; auto|exact A2].
    - intros fs H g s e' s' E. rewrite (iteF_conn fold K true) in E. destruct (smap _ fs s) as [ops s1] eqn:E1. injection E as <- <-.
      destruct (smap_wf true fs H g s ops s1 E1) as [G1 H1]. split; [exact G1|]. intros W Wg G A. destruct (H1 W Wg G A) as [N A1]. split; [|exact A1].
      exact (fset_cl _ (closed_wf q pv bq) true ops N).
    - intros fs H g s e' s' E. rewrite (iteF_conn fold K false) in E. destruct (smap _ fs s) as [ops s1] eqn:E1. injection E as <- <-.
      destruct (smap_wf false fs H g s ops s1 E1) as [G1 H1]. split; [exact G1|]. intros W Wg G A. destruct (H1 W Wg G A) as [N A1]. split; [|exact A1].
      exact (fset_cl _ (closed_wf q pv bq) false ops N).
    - intros h H g s e' s' E. rewrite iteF_not in E. destruct (iteF fold K h g s) as [h' s1] eqn:E1. injection E as <- <-.
      destruct (H g s h' s1 E1) as [G1 H1]. split; [exact G1|]. intros W Wg G A. destruct (H1 W Wg G A) as [N A1]. split; [|exact A1].
      apply (c_not _ (closed_wf q pv bq)). exact N.
    - intros vs h H g s e' s' E. rewrite iteF_all in E. cbv zeta in E. fold (inner_state s) in E. fold (inner fold K h (inner_state s)) in E.
      destruct (inner fold K h (inner_state s)) as [h' s1] eqn:Ei. injection E as <- <-. destruct (inner_eq _ _ _ _ _ _ Ei) as (k' & Ek & Rk).
      destruct (H _ _ _ _ Ek) as [[_ G2] _]. split; [split; [apply incl_refl|exact G2]|]. intros [Wb Wh] Wg G A. split; [|exact A].
      destruct (iteF_flat _ (closed_body _) (fun _ _ X => X) h (body_ite _ h Wh) Wh _ _ _ _ Ek) as (V1 & V2 & V3).
      rewrite V1. cbn [inner_state it_vars it_added] in *. rewrite app_nil_r. apply mk_forall_wf; [exact Wb|].
      pose proof (closed_body (fun v => q v \/ In v vs)) as C. apply (c_nnf _ C). apply (c_not _ C). apply (c_result _ C); [|rewrite V2; intros ? []].
      destruct Rk as [<-| ->]; [rewrite (c_not _ C) in V3; exact V3|apply (c_not _ C); exact V3].
  Qed.

  Lemma process_wf f n f' s : ite_process fold K f n = (f', s) -> wF f -> (forall v, In v (it_vars s) -> q v) ->
    (forall x, In x (it_nodes s) -> node_wf x) -> wF f'.
  Proof.
    intros E W Q N. unfold ite_process in E. destruct (iteF fold K f FTrue (it_init n)) as [k s1] eqn:Ek. injection E as <- <-.
    destruct (proj2 ite_static f FTrue (it_init n) k s1 Ek) as [_ H]. destruct (H W I (conj Q N)) as [H1 H2]; [intros ? []|].
    apply c_result; auto. apply closed_wf.
  Qed.
End Ite.

(** ** The clausal conversion and predicate abstraction *)
Record aclosed (fold : expr -> expr -> option dbl) (P : formula -> Prop) : Prop := {
  a_cl : closedP P;
  a_var : forall v, P (FVar v) <-> vty v = BOOLEAN;
  a_rel : forall o a b, P (FRel o a b) -> P (FRel (neg_relop o) a b);
  a_all : forall vs g, P (FForall vs g) -> forall c, In c (forall_clauses fold vs g) -> P c }.

Section Cnf.
  Variables (P : formula -> Prop).
  Hypothesis C : closedP P.
  Lemma add_clause_P f cs : P f -> (forall c, In c cs -> P c) -> forall c, In c (add_clause f cs) -> P c.
  Proof. intros H1 H2 c Hc. unfold add_clause in Hc. destruct (is_true f); auto. apply in_app_or in Hc. destruct Hc as [|[<-|[]]]; auto. Qed.
  Lemma fold_add_P (h : formula -> formula) l : (forall x, In x l -> P (h x)) -> forall cs, (forall c, In c cs -> P c) ->
    forall c, In c (fold_left (fun cs x => add_clause (h x) cs) l cs) -> P c.
  Proof.
    induction l as [|x l IH]; intros H cs Hcs c Hc; cbn [fold_left] in Hc; auto.
    eapply IH; [|  |exact Hc]; [intros; apply H; right; auto|]. apply add_clause_P; auto. apply H. left; auto.
  Qed.
  Lemma cnfize_P b d cs : P (FVar b) -> P d -> cnfize b d = Some cs -> forall c, In c cs -> P c.
  Proof.
    intros Pb D E c Hc.
    assert (Pnb : P (mk_not (FVar b))) by (apply (c_not P C); exact Pb).
    destruct d; cbn [cnfize] in E; try discriminate; injection E as <-.
    - revert c Hc. apply add_clause_P.
      + apply (c_or P C); auto. apply (c_disj P C). intros x Hx. apply (proj1 (fset_In _ _)) in Hx. apply in_map_iff in Hx. destruct Hx as (y & <- & Hy). apply (c_not P C). exact (proj1 (cA P C _) D y Hy).
      + apply (fold_add_P (fun bi => mk_or (mk_not (FVar b)) bi)); [|intros ? []]. intros x Hx. apply (c_or P C); auto. exact (proj1 (cA P C _) D x Hx).
    - revert c Hc. apply (fold_add_P (fun nbi => mk_or nbi (FVar b))).
      + intros x Hx. apply (proj1 (fset_In _ _)) in Hx. apply in_map_iff in Hx. destruct Hx as (y & <- & Hy). apply (c_or P C); auto. apply (c_not P C). exact (proj1 (cO P C _) D y Hy).
      + apply add_clause_P; [|intros ? []]. apply (c_or P C); auto.
    - revert c Hc. apply add_clause_P; [|apply add_clause_P; [|intros ? []]]; unfold mk_imply; apply (c_or P C); auto; apply (c_not P C); auto.
  Qed.
  Lemma get_clauses_P f : P f -> forall c, In c (get_clauses f) -> P c.
  Proof. intros H c Hc. destruct f; cbn [get_clauses] in Hc; try (destruct Hc as [<-|[]]; exact H). exact (proj1 (cA P C _) H c Hc). Qed.
  Lemma cnfize_map_P h m cs : (forall b d, In (b, d) m -> P (FVar b) /\ P d) -> cnfize_map h m = Some cs -> forall c, In c cs -> P c.
  Proof.
    revert cs. induction m as [|[b d] m IH]; intros cs H E c Hc; cbn [cnfize_map] in E; [injection E as <-; contradiction|].
    destruct (if var_eqb h b then Some (get_clauses d) else cnfize b d) as [c1|] eqn:E1; [|discriminate]. destruct (cnfize_map h m) as [c2|] eqn:E2; [|discriminate].
    injection E as <-. destruct (H b d (or_introl eq_refl)) as [B D]. apply in_app_or in Hc. destruct Hc as [Hc|Hc].
    - destruct (var_eqb h b); [injection E1 as <-; eapply get_clauses_P; eauto|eapply cnfize_P; eauto].
    - eapply IH; eauto. intros; apply H; right; auto.
  Qed.
End Cnf.

(** ** Clauses of a quantified formula *)
Section Fam.
  Variables (fold : expr -> expr -> option dbl) (I : Type) (P : I -> formula -> Prop).
  Hypothesis C : forall i, closedP (P i).
  Hypothesis R : forall i o o' a b, P i (FRel o a b) -> P i (FRel o' a b).
  Hypothesis A : forall i vs g h, (forall j, P j g -> P j h) -> P i (FForall vs g) -> P i (mk_forall vs h).
  Lemma fam_rel i o o' a b : P i (FRel o a b) -> P i (mk_rel fold o' a b).
  Proof. intros H. unfold mk_rel. destruct (fold a b) as [c|]; [destruct (relop_on o' c); [apply (cT _ (C i))|apply (cF _ (C i))]|exact (R i o o' a b H)]. Qed.
  Lemma fam_nnf i f : P i f -> forall pol, P i (nnf fold true f pol).
  Proof.
    induction f as [| |v|o a b|fs IH|fs IH|f IH|vs f IH] using formula_ind'; intros H pol; cbn [nnf];
      try (destruct pol; auto using (cT _ (C i)), (cF _ (C i)); apply (c_not _ (C i)); auto; fail).
    - destruct pol; [exact H|]. destruct o; exact (fam_rel _ _ _ _ _ H).
    - assert (K : forall g, In g (fset (map (fun g => nnf fold true g pol) fs)) -> P i g).
      { intros g Hg. apply fset_In, in_map_iff in Hg. destruct Hg as (x & <- & Hx). rewrite Forall_forall in IH. apply IH; auto. apply (proj1 (cA _ (C i) fs)); auto. }
      destruct pol; [apply (c_conj _ (C i))|apply (c_disj _ (C i))]; auto.
    - assert (K : forall g, In g (fset (map (fun g => nnf fold true g pol) fs)) -> P i g).
      { intros g Hg. apply fset_In, in_map_iff in Hg. destruct Hg as (x & <- & Hx). rewrite Forall_forall in IH. apply IH; auto. apply (proj1 (cO _ (C i) fs)); auto. }
      destruct pol; [apply (c_disj _ (C i))|apply (c_conj _ (C i))]; auto.
    - apply IH. apply (cN _ (C i)); auto.
  Qed.
  Lemma fam_step i a b : P i a -> P i b -> P i (or_step a b).
  Proof.
    intros Ha Hb. unfold or_step. apply (c_conj _ (C i)). intros g Hg. apply (proj1 (fset_In _ _)) in Hg.
    assert (S1 : forall gs x, (forall y, In y gs -> P i y) -> P i x -> forall g, In g (map (fun y => mk_or y x) gs) -> P i g)
      by (intros gs x Hgs Hx h Hh; apply in_map_iff in Hh; destruct Hh as (y & <- & Hy); apply (c_or _ (C i)); auto).
    assert (S2 : forall gs x, (forall y, In y gs -> P i y) -> P i x -> forall g, In g (map (fun y => mk_or x y) gs) -> P i g)
      by (intros gs x Hgs Hx h Hh; apply in_map_iff in Hh; destruct Hh as (y & <- & Hy); apply (c_or _ (C i)); auto).
    assert (S0 : forall g, In g [mk_or a b] -> P i g) by (intros h [<-|[]]; apply (c_or _ (C i)); auto).
    destruct a as [| | | |c1s| | |]; destruct b as [| | | |c2s| | |]; try (exact (S0 g Hg));
      try (exact (S1 c1s _ (proj1 (cA _ (C i) c1s) Ha) Hb g Hg)); try (exact (S2 c2s _ (proj1 (cA _ (C i) c2s) Hb) Ha g Hg)).
    apply in_flat_map in Hg. destruct Hg as (x & Hx & Hg). exact (S2 c2s x (proj1 (cA _ (C i) c2s) Hb) (proj1 (cA _ (C i) c1s) Ha x Hx) g Hg).
  Qed.
  Lemma fam_steps i l : (forall x, In x l -> P i x) -> forall a, P i a -> P i (fold_left or_step l a).
  Proof. induction l as [|x l IH]; intros H a Ha; cbn [fold_left]; [exact Ha|]. apply IH; [intros y Hy; apply H; right; exact Hy|]. apply fam_step; [exact Ha|apply H; left; reflexivity]. Qed.
  Lemma fam_ncnf n : forall f i, P i f -> P i (ncnf fold n f).
  Proof.
    induction n as [n IHn] using (well_founded_induction lt_wf).
    induction f as [| | v | op a b | fs IH | fs IH | g IH | vs g IH] using formula_ind'; intros i U.
    - destruct n; exact U.
    - destruct n; exact U.
    - destruct n; exact U.
    - destruct n, op; cbn [ncnf]; try exact U; (apply (c_and _ (C i)) || apply (c_or _ (C i))); eapply fam_rel; eauto.
    - rewrite Forall_forall in IH.
      assert (E : ncnf fold n (FAnd fs) = mk_conj (fset (map (ncnf fold n) fs))) by (destruct n; reflexivity).
      rewrite E. apply (c_conj _ (C i)). intros g Hg. apply (proj1 (fset_In _ _)) in Hg. apply in_map_iff in Hg.
      destruct Hg as (x & <- & Hx). apply IH; auto. exact (proj1 (cA _ (C i) fs) U x Hx).
    - rewrite Forall_forall in IH.
      assert (E : ncnf fold n (FOr fs) = fold_left or_step (fset (map (ncnf fold n) fs)) FFalse) by (destruct n; reflexivity).
      rewrite E. apply fam_steps; [|apply (cF _ (C i))]. intros g Hg. apply (proj1 (fset_In _ _)) in Hg. apply in_map_iff in Hg.
      destruct Hg as (x & <- & Hx). apply IH; auto. exact (proj1 (cO _ (C i) fs) U x Hx).
    - destruct n; exact U.
    - destruct n as [|m]; [exact U|]. change (P i (mk_forall vs (ncnf fold m (nnf fold true g true)))).
      apply (A i vs g); [|exact U]. intros j Hj. apply IHn; [lia|]. apply fam_nnf. exact Hj.
  Qed.
  Lemma fam_clauses i f : P i f -> forall c, In c (get_clauses (naive_cnf fold f)) -> P i c.
  Proof. intros H. apply (get_clauses_P (P i) (C i)). unfold naive_cnf. apply fam_ncnf, fam_nnf, H. Qed.
End Fam.
Lemma forall_clause_cases fold vs g c : In c (forall_clauses fold vs g) ->
  exists x, In x (get_clauses (naive_cnf fold g)) /\ ((c = mk_forall vs x /\ exists v, In v (fvF x) /\ In v vs) \/ (c = x /\ forall v, In v (fvF x) -> ~ In v vs)).
Proof.
  intros H. unfold forall_clauses in H. apply (proj1 (fset_In _ _)) in H. apply in_map_iff in H. destruct H as (x & E & Hx). exists x. split; [exact Hx|].
  destruct (existsb (fun v => mem_var v vs) (fvF x)) eqn:Ev.
  - left. split; [symmetry; exact E|]. apply existsb_exists in Ev. destruct Ev as (v & A & B). exists v. split; [exact A|apply mem_var_In; exact B].
  - right. split; [symmetry; exact E|]. intros v Hv Hin. assert (X : existsb (fun v => mem_var v vs) (fvF x) = true) by (apply existsb_exists; exists v; split; [exact Hv|apply mem_var_In; exact Hin]). congruence.
Qed.
Lemma body_clauses fold q f : bodyF q f -> forall c, In c (get_clauses (naive_cnf fold f)) -> bodyF q c.
Proof.
  apply (fam_clauses fold unit (fun _ => bodyF q)); try exact tt; [intros _; apply closed_body|intros _ o o' a b H; exact H|intros _ vs g h _ []].
Qed.
Lemma fclauses_unf fold vs g c : unfolded fold g -> In c (forall_clauses fold vs g) -> unfolded fold c.
Proof.
  intros H Hc. destruct (forall_clause_cases fold vs g c Hc) as (x & Hx & Ex).
  assert (U : unfolded fold x).
  { revert x Hx Ex. intros x Hx _. revert x Hx. apply (fam_clauses fold unit (fun _ => unfolded fold)); [intros _; apply closed_unf| | |exact tt|exact H].
    - intros _ o o' a b U. inversion U; subst. constructor. assumption.
    - intros _ us k h Hk U. inversion U; subst. unfold mk_forall. constructor. apply (Hk tt). assumption. }
  destruct Ex as [[-> _]|[-> _]]; [unfold mk_forall; constructor|]; exact U.
Qed.
(** The clauses of a well-formed quantified formula are well-formed. *)
Lemma forall_clauses_wf fold (q pv bq : var -> Prop) vs g : wfF q pv bq (FForall vs g) -> forall c, In c (forall_clauses fold vs g) -> wfF q pv bq c.
Proof.
  intros [B H] c Hc. destruct (forall_clause_cases fold vs g c Hc) as (x & Hx & [[-> _]|[-> Nv]]); pose proof (body_clauses fold _ g H x Hx) as Bx.
  - apply mk_forall_wf; assumption.
  - apply (body_wf q pv bq). apply (body_mono _ _ x Bx). intros v Hv [X|X]; [exact X|destruct (Nv v Hv X)].
Qed.
(** The clauses of a regular quantified formula are regular. *)
Lemma forall_clauses_reg fold M D G vs g rho : (forall v, In v vs -> typed_val (vty v) (rho v)) -> regF M D G (FForall vs g) rho ->
  forall c, In c (forall_clauses fold vs g) -> regF M D G c rho.
Proof.
  intros Ty H c Hc.
  assert (X : forall r, regF M D (relax vs G) g r -> forall x, In x (get_clauses (naive_cnf fold g)) -> regF M D (relax vs G) x r).
  { intros r Hr. apply (fam_clauses fold ({p : side * env | forall o o' a b x y, fst p o a b x y -> fst p o' a b x y}) (fun p f => regF M D (fst (proj1_sig p)) f (snd (proj1_sig p)))) with
      (i := exist (fun p : side * env => forall o o' a b x y, fst p o a b x y -> fst p o' a b x y) (relax vs G, r) (fun o o' a b x y H => H)); [| | |exact Hr].
    - intros [[G' r'] O]. apply closed_reg.
    - intros [[G' r'] O] o o' a b [[A1 A2] A3]. exact (conj (conj A1 A2) (O _ _ _ _ _ _ A3)).
    - intros [[G' r'] O] us k h Hk Hf. apply mk_forall_reg. cbn [proj1_sig fst snd regF] in *. intros r2 Ao At. specialize (Hf r2 Ao At).
      exact (Hk (exist (fun p : side * env => forall o o' a b x y, fst p o a b x y -> fst p o' a b x y) (relax us G', r2) (fun o o' a b x y H => H)) Hf). }
  destruct (forall_clause_cases fold vs g c Hc) as (x & Hx & [[-> _]|[-> Nv]]).
  - apply mk_forall_reg. cbn [regF] in *. intros r Ao At. apply X; [exact (H r Ao At)|exact Hx].
  - apply (relax_none M D vs); [exact Nv|]. apply X; [|exact Hx]. cbn [regF] in H. apply H; [intros v _; reflexivity|exact Ty].
Qed.

Section Conv.
  Variables (fold : expr -> expr -> option dbl) (P : formula -> Prop).
  Hypothesis A : aclosed fold P.
  Let C : closedP P := a_cl fold P A.

  Definition tsP (s : ts_state) : Prop := forall b d, In (b, d) (ts_map s) -> vty b = BOOLEAN /\ P d.
  Lemma ts_smap_P fs : Forall (fun f => forall s g s', ts_visit fold f s = (g, s') -> P f -> tsP s -> P g /\ tsP s') fs ->
    forall s r s', smap (ts_visit fold) fs s = (r, s') -> (forall f, In f fs -> P f) -> tsP s -> (forall g, In g r -> P g) /\ tsP s'.
  Proof.
    induction 1 as [|f fs Hf Hfs IH]; intros s r s' E Pf T; cbn [smap] in E; [injection E as <- <-; split; [intros ? []|exact T]|].
    destruct (ts_visit fold f s) as [g s1] eqn:E1. destruct (smap (ts_visit fold) fs s1) as [r' s2] eqn:E2. injection E as <- <-.
    destruct (Hf _ _ _ E1 (Pf f (or_introl eq_refl)) T) as [P1 T1].
    destruct (IH _ _ _ E2 (fun f H => Pf f (or_intror H)) T1) as [P2 T2]. split; [|exact T2]. intros h [<-|Hh]; auto.
  Qed.
  Lemma ts_visit_P f : forall s g s', ts_visit fold f s = (g, s') -> P f -> tsP s -> P g /\ tsP s'.
  Proof.
    induction f as [| |v|o a b|fs IH|fs IH|f IH|vs f IH] using formula_ind'; intros s g s' E Pf T; cbn [ts_visit] in E;
      try (injection E as <- <-; split; assumption).
    - destruct (smap (ts_visit fold) fs s) as [r s1] eqn:E1. injection E as <- <-.
      destruct (ts_smap_P fs IH _ _ _ E1 (proj1 (cA P C fs) Pf) T) as [P1 T1]. split; [apply (a_var fold P A); reflexivity|].
      intros b d [H|H]; [injection H as <- <-|apply T1; exact H]. split; [reflexivity|]. apply (c_conj P C). intros x Hx. apply P1. apply (proj1 (fset_In _ _)) in Hx. exact Hx.
    - destruct (smap (ts_visit fold) fs s) as [r s1] eqn:E1. injection E as <- <-.
      destruct (ts_smap_P fs IH _ _ _ E1 (proj1 (cO P C fs) Pf) T) as [P1 T1]. split; [apply (a_var fold P A); reflexivity|].
      intros b d [H|H]; [injection H as <- <-|apply T1; exact H]. split; [reflexivity|]. apply (c_disj P C). intros x Hx. apply P1. apply (proj1 (fset_In _ _)) in Hx. exact Hx.
    - destruct (is_atomic f); [injection E as <- <-; split; assumption|].
      unfold ts_fresh in E. destruct (ts_visit fold f _) as [f' s2] eqn:E1. injection E as <- <-.
      destruct (IH _ _ _ E1 (proj1 (cN P C f) Pf) T) as [P1 T1]. split; [apply (a_var fold P A); reflexivity|].
      intros b d [H|H]; [injection H as <- <-|apply T1; exact H]. split; [reflexivity|]. apply (c_not P C). exact P1.
    - pose proof (a_all fold P A _ _ Pf) as Cl. unfold ts_fresh in E.
      assert (Mt : forall cs, (forall c, In c cs -> P c) -> (FVar (mkVar (ts_next s) BOOLEAN), ts_emplace (mkVar (ts_next s) BOOLEAN) (mk_conj cs) {| ts_next := S (ts_next s); ts_map := ts_map s |}) = (g, s') -> P g /\ tsP s').
      { intros cs Hc X. injection X as <- <-. split; [apply (a_var fold P A); reflexivity|]. intros b d [Y|Y]; [injection Y as <- <-; split; [reflexivity|apply (c_conj P C); exact Hc]|exact (T b d Y)]. }
      destruct (forall_clauses fold vs f) as [|c [|c2 cs]]; [exact (Mt [] Cl E)| |exact (Mt (c :: c2 :: cs) Cl E)].
      injection E as <- <-. split; [apply Cl; left; reflexivity|exact T].
  Qed.
  Lemma ts_convert_P f n cs s : ts_convert fold f n = (Some cs, s) -> P f -> forall c, In c cs -> P c.
  Proof.
    intros E Pf. unfold ts_convert in E. destruct (ts_visit fold f {| ts_next := n; ts_map := [] |}) as [h s1] eqn:E1.
    destruct (ts_visit_P f _ _ _ E1 Pf) as [P1 T1]; [intros ? ? []|].
    destruct (ts_map s1) as [|p m] eqn:Em.
    - injection E as <- <-. intros c [<-|[]]. exact P1.
    - destruct h; try discriminate. injection E as E <-. apply (cnfize_map_P P C v (p :: m)); auto. rewrite <- Em.
      intros b d H. destruct (T1 b d H) as [T2 T3]. split; [apply (a_var fold P A); exact T2|exact T3].
  Qed.

  (** What the abstracted formula's variables stand for. *)
  Definition paV (X : var -> Prop) (s : pa_state) (v : var) : Prop := (exists a, In (v, a) (pa_map s) /\ P a) \/ (vty v = BOOLEAN /\ X v).
  Lemma paV_le X s s' v : pa_le s s' -> paV X s v -> paV X s' v.
  Proof. intros [_ I] [(a & H1 & H2)|H]; [left; exists a; auto|right; exact H]. Qed.
  Lemma closed_paV X s : closedP (fun g => forall v, In v (fvF g) -> paV X s v).
  Proof.
    split; try (intros v []); try (intros gs; cbn [fvF]; split;
      [intros H g Hg v Hv; apply H, in_flat_map; eauto|intros H v Hv; apply in_flat_map in Hv; destruct Hv as (g & A1 & B); apply (H g A1 v B)]).
    intros g. apply iff_refl.
  Qed.
  Lemma pa_atomic_V X f s g s' : P f -> pa_atomic f s = (g, s') -> forall v, In v (fvF g) -> paV X s' v.
  Proof.
    intros Pf E v Hv. unfold pa_atomic in E. destruct (pa_find f s) as [b|] eqn:F; injection E as <- <-; destruct Hv as [<-|[]]; left; exists f; (split; [|exact Pf]).
    - apply pa_find_some in F. exact F.
    - left. reflexivity.
  Qed.
  Variable M : interp.
  Lemma pa_smap_V (X : var -> Prop) fs : Forall (fun f => unfolded fold f -> (forall v, In v (fvF f) -> X v) -> forall s g s', pa_ok fold s -> pa_visit fold f s = (g, s') -> P f -> forall v, In v (fvF g) -> paV X s' v) fs ->
    (forall f, In f fs -> unfolded fold f /\ P f /\ forall v, In v (fvF f) -> X v) ->
    forall s r s', pa_ok fold s -> smap (pa_visit fold) fs s = (r, s') -> pa_ok fold s' /\ pa_le s s' /\ forall g, In g r -> forall v, In v (fvF g) -> paV X s' v.
  Proof.
    induction 1 as [|f fs Hf Hfs IH]; intros HP s r s' K E; cbn [smap] in E; [injection E as <- <-; split; [exact K|split; [apply pa_le_refl|intros ? []]]|].
    destruct (pa_visit fold f s) as [g s1] eqn:E1. destruct (smap (pa_visit fold) fs s1) as [r' s2] eqn:E2. injection E as <- <-.
    destruct (HP f (or_introl eq_refl)) as (U & Pf & Xf). destruct (pa_visit_spec M fold f U s g s1 K E1) as (K1 & L1 & _).
    destruct (IH (fun f H => HP f (or_intror H)) s1 r' s2 K1 E2) as (K2 & L2 & V2). split; [exact K2|]. split; [exact (pa_le_trans _ _ _ L1 L2)|].
    intros h [<-|Hh]; [|apply V2; exact Hh]. intros v Hv. exact (paV_le X s1 s2 v L2 (Hf U Xf s g s1 K E1 Pf v Hv)).
  Qed.
  Lemma pa_visit_V (X : var -> Prop) f : unfolded fold f -> (forall v, In v (fvF f) -> X v) -> forall s g s', pa_ok fold s -> pa_visit fold f s = (g, s') -> P f ->
    forall v, In v (fvF g) -> paV X s' v.
  Proof.
    induction f as [| |v|o a b|fs IH|fs IH|f IH|vs f IH] using formula_ind'; intros U Xf s g s' K E Pf; cbn [pa_visit] in E;
      (destruct (pa_find _ s) as [b0|] eqn:F; [injection E as <- <-; intros w [<-|[]]; left; eexists; split; [apply pa_find_some; exact F|exact Pf]|]).
    - injection E as <- <-. intros w [].
    - injection E as <- <-. intros w [].
    - injection E as <- <-. intros w [<-|[]]. right. split; [apply (a_var fold P A); exact Pf|apply Xf; left; reflexivity].
    - inversion U; subst.
      assert (Neg : forall o', neg_relop o = o' -> forall g1 s1, pa_atomic (mk_rel fold o' a b) s = (g1, s1) -> forall v, In v (fvF (mk_not g1)) -> paV X s1 v).
      { intros o' <- g1 s1 E1 v Hv. rewrite mk_rel_none in E1 by assumption. rewrite mk_not_fv in Hv. exact (pa_atomic_V X _ _ _ _ (a_rel fold P A _ _ _ Pf) E1 v Hv). }
      destruct o; try (exact (pa_atomic_V X _ _ _ _ Pf E)); unfold pa_neg_atomic in E;
        match type of E with context [pa_atomic ?f s] => destruct (pa_atomic f s) as [g1 s1] eqn:E1 end; injection E as <- <-; exact (Neg _ eq_refl _ _ E1).
    - destruct (smap (pa_visit fold) fs s) as [r s1] eqn:E1. injection E as <- <-. inversion U; subst.
      destruct (pa_smap_V X fs IH) with (s := s) (r := r) (s' := s1) as (_ & _ & V); auto.
      { intros f Hf. split; [exact (H0 f Hf)|]. split; [exact (proj1 (cA P C fs) Pf f Hf)|]. intros v Hv. apply Xf. cbn [fvF]. apply in_flat_map. eauto. }
      apply (c_conj _ (closed_paV X s1)). intros x Hx. apply (proj1 (fset_In _ _)) in Hx. apply V. exact Hx.
    - destruct (smap (pa_visit fold) fs s) as [r s1] eqn:E1. injection E as <- <-. inversion U; subst.
      destruct (pa_smap_V X fs IH) with (s := s) (r := r) (s' := s1) as (_ & _ & V); auto.
      { intros f Hf. split; [exact (H0 f Hf)|]. split; [exact (proj1 (cO P C fs) Pf f Hf)|]. intros v Hv. apply Xf. cbn [fvF]. apply in_flat_map. eauto. }
      apply (c_disj _ (closed_paV X s1)). intros x Hx. apply (proj1 (fset_In _ _)) in Hx. apply V. exact Hx.
    - destruct (pa_visit fold f s) as [f' s1] eqn:E1. injection E as <- <-. inversion U; subst. intros v Hv. rewrite mk_not_fv in Hv.
      exact (IH H0 Xf s f' s1 K E1 (proj1 (cN P C f) Pf) v Hv).
    - exact (pa_atomic_V X _ _ _ _ Pf E).
  Qed.
  (** All formulas converted in sequence. *)
  Lemma pa_all_V (X : var -> Prop) fs s r s' : (forall f, In f fs -> unfolded fold f /\ P f /\ forall v, In v (fvF f) -> X v) ->
    pa_ok fold s -> smap (pa_visit fold) fs s = (r, s') -> pa_ok fold s' /\ pa_le s s' /\ forall g, In g r -> forall v, In v (fvF g) -> paV X s' v.
  Proof.
    intros H K E. apply (pa_smap_V X fs); auto. apply Forall_forall. intros f Hf U Xf. apply pa_visit_V; auto.
  Qed.
End Conv.

Lemma closed_fvin X : closedP (fvin X).
Proof.
  split; try (intros v []); try (intros gs; split; [intros H g Hg v Hv; apply H, in_flat_map; eauto|intros H v Hv; apply in_flat_map in Hv; destruct Hv as (g & A1 & B); apply (H g A1 v B)]).
  intros g. apply iff_refl.
Qed.
(** The clauses' variables are the formula's and the new ones. *)
Lemma ts_convert_fv (M : interp) fold f n cs s : unfolded fold f -> bnd n (fvF f) -> ts_convert fold f n = (Some cs, s) ->
  forall c, In c cs -> forall v, In v (fvF c) -> In v (fvF f) \/ In v (map fst (ts_map s)).
Proof.
  intros U B E. unfold ts_convert in E. destruct (ts_visit fold f {| ts_next := n; ts_map := [] |}) as [h s1] eqn:E1.
  assert (K0 : ts_ok (fun v => In v (fvF f)) {| ts_next := n; ts_map := [] |}) by (split; [constructor|exact B|intros ? []]).
  destruct (ts_visit_spec M fold (fun v => In v (fvF f)) f U (fun v H => H) _ _ _ K0 E1) as (K1 & _ & [F1 _] & _).
  destruct (ts_map s1) as [|p m] eqn:Em; [injection E as <- <-; intros c [<-|[]] v Hv; rewrite Em; exact (F1 v Hv)|].
  destruct h; try discriminate. injection E as E <-. rewrite Em.
  refine (cnfize_map_P (fvin (fun v => In v (fvF f) \/ In v (map fst (p :: m)))) (closed_fvin _) v (p :: m) cs _ E).
  intros b d H. split.
  - intros w [<-|[]]. right. exact (in_map fst _ _ H).
  - pose proof (to_wf _ _ K1) as W. rewrite Em in W. exact (wfmap_defs _ _ b d W H).
Qed.
