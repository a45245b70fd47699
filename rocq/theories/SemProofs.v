(** Basic facts about the semantics. *)
From Coq Require Import ZArith Reals Lra List Bool ClassicalDescription Classical FunctionalExtensionality.
From Flocq Require Import IEEE754.BinarySingleNaN.
From Verif Require Import Dbl Syntax Sem.
Import ListNotations.
Local Open Scope R_scope.

Section S.
  Variable M : interp.
  Notation ev := (evalE M). Notation hd := (holds M).

  Lemma holds_and fs rho : hd (FAnd fs) rho <-> Forall (fun g => hd g rho) fs.
  Proof.
    simpl. induction fs as [|g fs IH]; simpl; [split; auto|].
    rewrite IH, Forall_cons_iff. reflexivity.
  Qed.
  Lemma holds_or fs rho : hd (FOr fs) rho <-> Exists (fun g => hd g rho) fs.
  Proof.
    simpl. induction fs as [|g fs IH]; simpl; [split; [tauto|inversion 1]|].
    rewrite IH, Exists_cons. reflexivity.
  Qed.
  Lemma holds_and_in fs rho : hd (FAnd fs) rho <-> (forall g, In g fs -> hd g rho).
  Proof. rewrite holds_and, Forall_forall. reflexivity. Qed.
  Lemma holds_or_in fs rho : hd (FOr fs) rho <-> (exists g, In g fs /\ hd g rho).
  Proof. rewrite holds_or, Exists_exists. reflexivity. Qed.

  Lemma ev_ite f a b rho : (hd f rho -> ev (EIte f a b) rho = ev a rho) /\
                           (~ hd f rho -> ev (EIte f a b) rho = ev b rho).
  Proof. simpl. destruct (excluded_middle_informative (hd f rho)); tauto. Qed.

  (** Value and truth depend only on the free variables. *)
  Lemma fv_agree :
    (forall e rho rho', (forall v, In v (fvE e) -> rho v = rho' v) -> ev e rho = ev e rho') /\
    (forall f rho rho', (forall v, In v (fvF f) -> rho v = rho' v) -> (hd f rho <-> hd f rho')).
  Proof.
    apply expr_formula_ind2; try (intros; simpl; reflexivity).
    - intros v rho rho' H. simpl. apply H. simpl; auto.
    - intros c ts H rho rho' A. simpl.
      induction H as [|[a k] ts Ha Hts IH]; simpl; auto. simpl in Ha.
      rewrite (Ha rho rho'), IH; auto; intros; apply A; simpl; apply in_or_app; auto.
    - intros c ts H rho rho' A. simpl.
      induction H as [|[a k] ts [Ha Hk] Hts IH]; simpl; auto. simpl in Ha, Hk.
      rewrite (Ha rho rho'), (Hk rho rho'), IH; auto; intros; apply A; simpl; repeat (apply in_or_app; auto);
        left; apply in_or_app; auto.
    - intros o a IH rho rho' A. simpl. rewrite (IH rho rho'); auto.
    - intros o a b IH1 IH2 rho rho' A. simpl. rewrite (IH1 rho rho'), (IH2 rho rho'); auto;
        intros; apply A; simpl; apply in_or_app; auto.
    - intros f a b IH0 IH1 IH2 rho rho' A.
      assert (E : hd f rho <-> hd f rho') by (apply IH0; intros; apply A; simpl; apply in_or_app; auto).
      assert (E1 : ev a rho = ev a rho') by
        (apply IH1; intros; apply A; simpl; apply in_or_app; right; apply in_or_app; auto).
      assert (E2 : ev b rho = ev b rho') by
        (apply IH2; intros; apply A; simpl; apply in_or_app; right; apply in_or_app; auto).
      simpl. destruct (excluded_middle_informative (hd f rho)), (excluded_middle_informative (hd f rho')); tauto.
    - intros n vs rho rho' A. simpl. f_equal. apply map_ext_in. exact A.
    - intros v rho rho' A. simpl. rewrite (A v); simpl; auto. reflexivity.
    - intros o a b IH1 IH2 rho rho' A. simpl. rewrite (IH1 rho rho'), (IH2 rho rho'); try reflexivity;
        intros; apply A; simpl; apply in_or_app; auto.
    - intros fs H rho rho' A. rewrite !holds_and. simpl in A.
      induction H as [|g fs Hg Hfs IH]; [split; auto|].
      rewrite !Forall_cons_iff, (Hg rho rho'), IH; [reflexivity| |]; intros; apply A; simpl; apply in_or_app; auto.
    - intros fs H rho rho' A. rewrite !holds_or. simpl in A.
      induction H as [|g fs Hg Hfs IH]; [split; inversion 1|].
      rewrite !Exists_cons, (Hg rho rho'), IH; [reflexivity| |]; intros; apply A; simpl; apply in_or_app; auto.
    - intros f IH rho rho' A. simpl. rewrite (IH rho rho'); auto. reflexivity.
    - intros vs f IH rho rho' A. simpl.
      assert (K : forall r r', (forall v, In v (fvF (FForall vs f)) -> r v = r' v) ->
                  hd (FForall vs f) r -> hd (FForall vs f) r').
      { clear rho rho' A. intros r r' A H sigma Hs Ht.
        apply (IH (fun v => if in_dec var_eq_dec v vs then sigma v else r v)).
        - intros v Hv. destruct (in_dec var_eq_dec v vs); auto.
          rewrite (Hs v n). apply A. simpl. apply filter_In. split; auto.
          destruct (mem_var v vs) eqn:E; auto. apply mem_var_In in E. tauto.
        - apply H.
          + intros v Hv. destruct (in_dec var_eq_dec v vs); tauto.
          + intros v Hv. destruct (in_dec var_eq_dec v vs); [auto|tauto]. }
      split; apply K; auto. intros v Hv; symmetry; auto.
  Qed.

  Lemma evalE_agree e rho rho' : (forall v, In v (fvE e) -> rho v = rho' v) -> ev e rho = ev e rho'.
  Proof. apply fv_agree. Qed.
  Lemma holds_agree f rho rho' : (forall v, In v (fvF f) -> rho v = rho' v) -> (hd f rho <-> hd f rho').
  Proof. apply fv_agree. Qed.

  Lemma relR_neg_eq a b : relR RNeq a b <-> ~ relR REq a b. Proof. reflexivity. Qed.
  Lemma relR_neg_gt a b : relR RLeq a b <-> ~ relR RGt a b. Proof. simpl; lra. Qed.
  Lemma relR_neg_geq a b : relR RLt a b <-> ~ relR RGeq a b. Proof. simpl; lra. Qed.
  Lemma relR_neg_lt a b : relR RGeq a b <-> ~ relR RLt a b. Proof. simpl; lra. Qed.
  Lemma relR_neg_leq a b : relR RGt a b <-> ~ relR RLeq a b. Proof. simpl; lra. Qed.
  Lemma relR_eq_dn a b : relR REq a b <-> ~ relR RNeq a b.
  Proof. simpl. split; [lra|]. intros H. destruct (Req_dec a b); tauto. Qed.
End S.
