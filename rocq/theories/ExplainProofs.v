(** Explanations are infeasible on their own. *)
From Coq Require Import ZArith Reals Lra Lia List Bool.
From Flocq Require Import Core.Core IEEE754.BinarySingleNaN.
From Verif Require Import Dbl DblProofs Syntax Sem SemProofs Interval IntervalProofs MathConv MathConvProofs IEval IEvalProofs Contr ContrProofs IbexConv Icp IcpProofs IcpTop IcpPar IcpParProofs Filter FilterProofs Theory.
Import ListNotations.

(** ** Definedness depends only on the free variables *)
Section Agree.
  Variables (M : interp) (D : pdom).
  Lemma def_agree :
    (forall e rho rho', (forall v, In v (fvE e) -> rho v = rho' v) -> defE M D e rho -> defE M D e rho') /\
    (forall f rho rho', (forall v, In v (fvF f) -> rho v = rho' v) -> defF M D f rho -> defF M D f rho').
  Proof.
    apply expr_formula_ind2; try (intros; exact I).
    - intros c ts H rho rho' A. cbn [defE fvE] in *.
      induction H as [|[a k] ts Ha Hts IH]; cbn [fold_right flat_map] in *; auto. cbn [fst] in Ha.
      intros [B C]. split; [apply (Ha rho rho'); auto; intros; apply A; apply in_or_app; auto|apply IH; auto; intros; apply A; apply in_or_app; auto].
    - intros c ts H rho rho' A. cbn [defE fvE] in *.
      induction H as [|[a k] ts [Ha Hk] Hts IH]; cbn [fold_right flat_map] in *; auto. cbn [fst snd] in Ha, Hk.
      assert (A1 : forall v, In v (fvE a) -> rho v = rho' v) by (intros; apply A; apply in_or_app; left; apply in_or_app; auto).
      assert (A2 : forall v, In v (fvE k) -> rho v = rho' v) by (intros; apply A; apply in_or_app; left; apply in_or_app; auto).
      rewrite (evalE_agree M a rho rho' A1), (evalE_agree M k rho rho' A2).
      intros [(B1 & B2 & B3) C]. split; [split; [apply (Ha rho rho'); auto|split; [apply (Hk rho rho'); auto|auto]]|].
      apply IH; auto. intros; apply A; apply in_or_app; auto.
    - intros o a IH rho rho' A [B C]. cbn [defE fvE] in *. rewrite <- (evalE_agree M a rho rho' A). split; auto. apply (IH rho rho'); auto.
    - intros o a b IH1 IH2 rho rho' A (B & C & E). cbn [defE fvE] in *.
      assert (A1 : forall v, In v (fvE a) -> rho v = rho' v) by (intros; apply A; apply in_or_app; auto).
      assert (A2 : forall v, In v (fvE b) -> rho v = rho' v) by (intros; apply A; apply in_or_app; auto).
      rewrite <- (evalE_agree M a rho rho' A1), <- (evalE_agree M b rho rho' A2). split; [apply (IH1 rho rho'); auto|]. split; auto. apply (IH2 rho rho'); auto.
    - intros f a b IH0 IH1 IH2 rho rho' A (B & C & E). cbn [defE fvE] in *.
      split; [apply (IH0 rho rho'); auto; intros; apply A; apply in_or_app; auto|].
      split; [apply (IH1 rho rho'); auto; intros; apply A|apply (IH2 rho rho'); auto; intros; apply A]; apply in_or_app; right; apply in_or_app; auto.
    - intros o a b IH1 IH2 rho rho' A (B & C). cbn [defF fvF] in *. split; [apply (IH1 rho rho')|apply (IH2 rho rho')]; auto; intros; apply A; apply in_or_app; auto.
    - intros fs H rho rho' A. cbn [defF fvF] in *.
      induction H as [|g fs Hg Hfs IH]; cbn [fold_right flat_map] in *; auto.
      intros [B C]. split; [apply (Hg rho rho'); auto; intros; apply A; apply in_or_app; auto|apply IH; auto; intros; apply A; apply in_or_app; auto].
    - intros fs H rho rho' A. cbn [defF fvF] in *.
      induction H as [|g fs Hg Hfs IH]; cbn [fold_right flat_map] in *; auto.
      intros [B C]. split; [apply (Hg rho rho'); auto; intros; apply A; apply in_or_app; auto|apply IH; auto; intros; apply A; apply in_or_app; auto].
    - intros f IH rho rho' A H. cbn [defF] in *. apply (IH rho rho'); auto.
    - intros vs f IH r r' A H. cbn [defF fvF] in *. intros sigma Hs Ht.
      apply (IH (fun v => if mem_var v vs then sigma v else r v)).
      + intros v Hv. destruct (mem_var v vs) eqn:E; auto.
        rewrite (Hs v); [apply A; apply filter_In; rewrite E; auto|]. intros X. apply mem_var_In in X. congruence.
      + apply H.
        * intros v Hv. destruct (mem_var v vs) eqn:E; auto. apply mem_var_In in E. tauto.
        * intros v Hv. cbn beta. rewrite (proj2 (mem_var_In v vs) Hv). auto.
  Qed.
  Lemma solves_agree f rho rho' : (forall v, In v (fvF f) -> rho v = rho' v) -> solves M D f rho -> solves M D f rho'.
  Proof. intros A [B C]. split; [apply (proj2 def_agree f rho rho'); auto|apply (holds_agree M f rho rho'); auto]. Qed.
End Agree.

(** ** The closure *)
Lemma have_int_spec a b : have_int a b = true <-> exists v, In v a /\ In v b.
Proof. unfold have_int. rewrite existsb_exists. split; intros (v & A & B); exists v; split; auto; apply mem_var_In; auto. Qed.
Lemma expl_new_in used expl g : In g (expl_new used expl) <-> In g used /\ ~ In g expl /\ exists f v, In f expl /\ In v (fvF f) /\ In v (fvF g).
Proof.
  unfold expl_new. rewrite filter_In, andb_true_iff, negb_true_iff, existsb_exists. split.
  - intros (A & B & f & C & E). apply have_int_spec in E. destruct E as (v & E1 & E2). split; auto. split; [|eauto].
    intros X. apply mem_form_In in X. congruence.
  - intros (A & B & f & v & C & E1 & E2). split; auto. split.
    + destruct (mem_form g expl) eqn:X; auto. apply mem_form_In in X. tauto.
    + exists f. split; auto. apply have_int_spec. eauto.
Qed.
Definition missing (used expl : list formula) : nat := length (filter (fun g => negb (mem_form g expl)) used).
Lemma filter_le_len {A} (p q : A -> bool) l : (forall x, In x l -> p x = true -> q x = true) -> length (filter p l) <= length (filter q l).
Proof.
  induction l as [|x l IH]; intros H; cbn [filter]; auto. assert (IH' : length (filter p l) <= length (filter q l)) by (apply IH; intros; apply H; [right|]; auto).
  destruct (p x) eqn:E; [rewrite (H x (or_introl eq_refl) E); cbn; lia|]. destruct (q x); cbn; lia.
Qed.
Lemma filter_lt_len {A} (p q : A -> bool) l y : (forall x, In x l -> p x = true -> q x = true) -> In y l -> p y = false -> q y = true -> length (filter p l) < length (filter q l).
Proof.
  induction l as [|x l IH]; intros H Hy P Q; cbn [filter]; [destruct Hy|destruct Hy as [->|Hy]].
  - rewrite P, Q. cbn. pose proof (filter_le_len p q l (fun x Hx => H x (or_intror Hx))). lia.
  - specialize (IH (fun x Hx => H x (or_intror Hx)) Hy P Q). destruct (p x) eqn:E; [rewrite (H x (or_introl eq_refl) E); cbn; lia|]. destruct (q x); cbn; lia.
Qed.
Lemma missing_dec used expl : expl_new used expl <> [] -> missing used (expl ++ expl_new used expl) < missing used expl.
Proof.
  intros N. destruct (expl_new used expl) as [|g l] eqn:E; [congruence|]. assert (Hg : In g (expl_new used expl)) by (rewrite E; left; auto).
  apply expl_new_in in Hg. destruct Hg as (A & B & _). unfold missing. apply (filter_lt_len _ _ used g); auto.
  - intros x Hx. rewrite !negb_true_iff. intros H. destruct (mem_form x expl) eqn:X; auto. apply mem_form_In in X.
    assert (Y : mem_form x (expl ++ g :: l) = true) by (apply mem_form_In, in_or_app; auto). congruence.
  - apply negb_false_iff, mem_form_In, in_or_app. right; left; auto.
  - apply negb_true_iff. destruct (mem_form g expl) eqn:X; auto. apply mem_form_In in X. tauto.
Qed.
Lemma filter_len {A} (p : A -> bool) l : length (filter p l) <= length l.
Proof. induction l; cbn [filter]; auto. destruct (p a); cbn; lia. Qed.
Definition closed_expl (used expl : list formula) : Prop := forall f g v, In f expl -> In g used -> In v (fvF f) -> In v (fvF g) -> In g expl.
Lemma expl_loop_spec used n : forall expl, missing used expl < n -> incl expl used ->
  incl expl (expl_loop n used expl) /\ incl (expl_loop n used expl) used /\ closed_expl used (expl_loop n used expl).
Proof.
  induction n as [|n IH]; intros expl L I; [lia|]. cbn [expl_loop]. destruct (expl_new used expl) as [|g l] eqn:E.
  - split; [apply incl_refl|]. split; auto. intros f h v A B C F. destruct (mem_form h expl) eqn:X; [apply mem_form_In; auto|]. exfalso.
    assert (Y : In h (expl_new used expl)). { apply expl_new_in. split; auto. split; [|eauto]. intros Z. apply mem_form_In in Z. congruence. }
    rewrite E in Y. destruct Y.
  - assert (N : expl_new used expl <> []) by (rewrite E; discriminate). pose proof (missing_dec used expl N) as Md. rewrite E in Md.
    destruct (IH (expl ++ g :: l)) as (A & B & C); [lia| |].
    + apply incl_app; auto. rewrite <- E. intros x Hx. apply expl_new_in in Hx. tauto.
    + split; auto. intros x Hx. apply A, in_or_app. auto.
Qed.
Lemma explanation_spec wit used : let E := explanation wit used in
  incl E used /\ (forall f, In f used -> fvF f = [] -> In f E) /\ (forall f v, In f used -> In v (fvF f) -> In v wit -> In f E) /\ closed_expl used E.
Proof.
  unfold explanation. set (init := filter _ used). cbv zeta.
  assert (Ii : incl init used) by (intros x Hx; apply filter_In in Hx; tauto).
  assert (I1 : forall f, In f used -> fvF f = [] -> In f init) by (intros f A B; apply filter_In; rewrite B; auto).
  assert (I2 : forall f v, In f used -> In v (fvF f) -> In v wit -> In f init).
  { intros f v A B C. apply filter_In. split; auto. destruct (fvF f) eqn:F; auto. apply have_int_spec. exists v. split; auto. }
  destruct wit as [|w wit].
  - split; auto. split; auto. split; auto. intros f g v A B C _. exfalso. apply filter_In in A. destruct A as [_ A]. destruct (fvF f) as [|x l] eqn:F; [destruct C|]. discriminate.
  - assert (L : missing used init < S (length used)). { unfold missing. pose proof (filter_len (fun g => negb (mem_form g init)) used). lia. }
    destruct (expl_loop_spec used (S (length used)) init L Ii) as (A & B & C). split; auto. split; [intros; apply A; auto|]. split; [|auto].
    intros f v X Y Z. apply A. exact (I2 f v X Y Z).
Qed.

(** ** A point of every interval *)
Definition ipt (i : ival) : R :=
  match i with IEmpty => 0%R | IV l u => if is_finite l then B2R l else if is_finite u then B2R u else 0%R end.
Lemma ipt_mem i : i_ok i -> i_empty i = false -> imem (ipt i) i.
Proof.
  destruct i as [|l u]; [discriminate|]. intros (A & B & C) _. pose proof (dle_true _ _ A) as L. destruct (dle_not_nan _ _ A) as [Nl Nu].
  cbn [imem ipt].
  destruct (is_finite l) eqn:Fl; [|destruct (is_finite u) eqn:Fu].
  - rewrite (finite_d2e _ Fl) in *. split; auto. cbn; lra.
  - rewrite (finite_d2e _ Fu) in *. split; auto. cbn; lra.
  - destruct l as [|[]| |], u as [|[]| |]; try discriminate; cbn; auto.
Qed.
Lemma i_eqb_mem a b x : i_eqb a b = true -> imem x a -> imem x b.
Proof.
  destruct a as [|l u], b as [|l' u']; cbn [i_eqb imem]; try discriminate; auto. intros H. apply andb_true_iff in H. destruct H as [H1 H2].
  apply deq_true in H1. apply deq_true in H2. rewrite H1, H2. auto.
Qed.
Lemma full_nonempty b : box_ok b -> b_full b -> b_empty b = false.
Proof. intros (_ & L & _) F. unfold b_empty. destruct (bvals b) as [|i l] eqn:E; [cbn [length] in L; lia|]. unfold b_full in F. rewrite E in F. inversion F; auto. Qed.
Lemma full_get b i v : box_ok b -> b_full b -> nth_error (bvars b) i = Some v -> i_empty (b_get b i) = false.
Proof. intros K F E. unfold b_full in F. rewrite Forall_forall in F. apply F. apply nth_In. eapply box_ok_len; eauto. Qed.
Lemma in_box_full rho b : box_ok b -> in_box rho b -> b_full b.
Proof.
  intros K [He H]. apply Forall_forall. intros x Hx. apply In_nth with (d := IEmpty) in Hx. destruct Hx as (i & L & <-).
  destruct (nth_error (bvars b) i) as [v|] eqn:E; [eapply imem_nonempty; exact (H i v E)|].
  apply nth_error_None in E. destruct K as (_ & Lb & _). assert (i = 0) as -> by lia. exact He.
Qed.
