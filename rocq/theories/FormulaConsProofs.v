(** The formula constructors preserve meaning. *)
From Coq Require Import ZArith Reals Lra List Bool Classical.
From Flocq Require Import IEEE754.BinarySingleNaN.
From Verif Require Import Dbl DblProofs Syntax Sem SemProofs FormulaCons.
Import ListNotations.
Local Open Scope R_scope.

Lemma fmem_In f s : fmem f s = true <-> In f s.
Proof.
  unfold fmem. rewrite existsb_exists. split.
  - intros (g & Hg & E). apply formula_eqb_eq in E. now subst.
  - intros H; exists f; split; auto. apply formula_eqb_refl.
Qed.
Lemma finsert_In f s g : In g (finsert f s) <-> g = f \/ In g s.
Proof.
  unfold finsert. destruct (fmem f s) eqn:E.
  - apply fmem_In in E. split; [auto|intros [->|]; auto].
  - rewrite in_app_iff. simpl. intuition.
Qed.
Lemma finserts_In fs s g : In g (finserts fs s) <-> In g fs \/ In g s.
Proof.
  unfold finserts. revert s; induction fs as [|f fs IH]; intros s; simpl; [intuition|].
  rewrite IH, finsert_In. intuition.
Qed.
Lemma fset_In fs g : In g (fset fs) <-> In g fs.
Proof. unfold fset. rewrite finserts_In. simpl. intuition. Qed.

Lemma finsert_NoDup f s : NoDup s -> NoDup (finsert f s).
Proof.
  intros H. unfold finsert. destruct (fmem f s) eqn:E; auto.
  apply NoDup_rev in H. rewrite <- (rev_involutive (s ++ [f])). apply NoDup_rev.
  rewrite rev_app_distr. simpl. constructor; auto.
  rewrite <- in_rev. intro C. apply fmem_In in C. congruence.
Qed.
Lemma finserts_NoDup fs s : NoDup s -> NoDup (finserts fs s).
Proof. revert s; induction fs as [|f fs IH]; simpl; intros s H; auto. apply IH. now apply finsert_NoDup. Qed.
Lemma fset_NoDup fs : NoDup (fset fs).
Proof. apply finserts_NoDup. constructor. Qed.

Lemma is_true_eq f : is_true f = true -> f = FTrue. Proof. destruct f; simpl; congruence. Qed.
Lemma is_false_eq f : is_false f = true -> f = FFalse. Proof. destruct f; simpl; congruence. Qed.

Section S.
  Variable M : interp.
  Notation hd := (holds M).

  Lemma holds_finserts_and fs s rho :
    hd (FAnd (finserts fs s)) rho <-> hd (FAnd fs) rho /\ hd (FAnd s) rho.
  Proof.
    rewrite !holds_and_in. split.
    - intros H; split; intros g Hg; apply H, finserts_In; auto.
    - intros [H1 H2] g Hg. apply finserts_In in Hg. destruct Hg; auto.
  Qed.
  Lemma holds_finsert_and f s rho : hd (FAnd (finsert f s)) rho <-> hd f rho /\ hd (FAnd s) rho.
  Proof.
    rewrite !holds_and_in. split.
    - intros H; split; [apply H, finsert_In; auto|]. intros g Hg; apply H, finsert_In; auto.
    - intros [H1 H2] g Hg. apply finsert_In in Hg. destruct Hg as [->|]; auto.
  Qed.
  Lemma holds_finserts_or fs s rho :
    hd (FOr (finserts fs s)) rho <-> hd (FOr fs) rho \/ hd (FOr s) rho.
  Proof.
    rewrite !holds_or_in. split.
    - intros (g & Hg & H). apply finserts_In in Hg. destruct Hg; [left|right]; eauto.
    - intros [(g & Hg & H)|(g & Hg & H)]; exists g; split; auto; apply finserts_In; auto.
  Qed.
  Lemma holds_finsert_or f s rho : hd (FOr (finsert f s)) rho <-> hd f rho \/ hd (FOr s) rho.
  Proof.
    rewrite !holds_or_in. split.
    - intros (g & Hg & H). apply finsert_In in Hg. destruct Hg as [->|]; [left|right]; eauto.
    - intros [H|(g & Hg & H)]; [exists f|exists g]; split; auto; apply finsert_In; auto.
  Qed.

  Lemma holds_fset_and fs rho : hd (FAnd (fset fs)) rho <-> hd (FAnd fs) rho.
  Proof. unfold fset. rewrite holds_finserts_and. simpl. tauto. Qed.
  Lemma holds_fset_or fs rho : hd (FOr (fset fs)) rho <-> hd (FOr fs) rho.
  Proof. unfold fset. rewrite holds_finserts_or. simpl. tauto. Qed.

  Lemma merge_conj_holds f s rho : hd (FAnd (merge_conj f s)) rho <-> hd f rho /\ hd (FAnd s) rho.
  Proof. unfold merge_conj. destruct f; try apply holds_finsert_and. apply holds_finserts_and. Qed.
  Lemma merge_disj_holds f s rho : hd (FOr (merge_disj f s)) rho <-> hd f rho \/ hd (FOr s) rho.
  Proof. unfold merge_disj. destruct f; try apply holds_finsert_or. apply holds_finserts_or. Qed.

  Lemma mk_and_holds f1 f2 rho : hd (mk_and f1 f2) rho <-> hd f1 rho /\ hd f2 rho.
  Proof.
    unfold mk_and.
    destruct (is_false f1) eqn:E1; [apply is_false_eq in E1; subst; simpl; tauto|].
    destruct (is_false f2) eqn:E2; [apply is_false_eq in E2; subst; simpl; tauto|].
    destruct (is_true f1) eqn:E3; [apply is_true_eq in E3; subst; simpl; tauto|].
    destruct (is_true f2) eqn:E4; [apply is_true_eq in E4; subst; simpl; tauto|].
    destruct (formula_eqb f1 f2) eqn:E5; [apply formula_eqb_eq in E5; subst; tauto|].
    assert (D : hd (FAnd (fset [f1; f2])) rho <-> hd f1 rho /\ hd f2 rho)
      by (rewrite holds_fset_and; simpl; tauto).
    destruct f1; destruct f2; try exact D; rewrite merge_conj_holds; tauto.
  Qed.
  Lemma mk_or_holds f1 f2 rho : hd (mk_or f1 f2) rho <-> hd f1 rho \/ hd f2 rho.
  Proof.
    unfold mk_or.
    destruct (is_true f1) eqn:E3; [apply is_true_eq in E3; subst; simpl; tauto|].
    destruct (is_true f2) eqn:E4; [apply is_true_eq in E4; subst; simpl; tauto|].
    destruct (is_false f1) eqn:E1; [apply is_false_eq in E1; subst; simpl; tauto|].
    destruct (is_false f2) eqn:E2; [apply is_false_eq in E2; subst; simpl; tauto|].
    destruct (formula_eqb f1 f2) eqn:E5; [apply formula_eqb_eq in E5; subst; tauto|].
    assert (D : hd (FOr (fset [f1; f2])) rho <-> hd f1 rho \/ hd f2 rho)
      by (rewrite holds_fset_or; simpl; tauto).
    destruct f1; destruct f2; try exact D; rewrite merge_disj_holds; tauto.
  Qed.

  Lemma conj_loop_holds fs ops rho :
    match conj_loop fs ops with
    | None => ~ hd (FAnd fs) rho
    | Some ops' => hd (FAnd ops') rho <-> hd (FAnd fs) rho /\ hd (FAnd ops) rho
    end.
  Proof.
    revert ops; induction fs as [|f fs IH]; intros ops; [simpl; tauto|].
    cbn [conj_loop].
    destruct (is_false f) eqn:E1; [apply is_false_eq in E1; subst; simpl; tauto|].
    destruct (is_true f) eqn:E3; [apply is_true_eq in E3; subst; simpl; specialize (IH ops);
      destruct (conj_loop fs ops); simpl in *; tauto|].
    assert (D : match conj_loop fs (finsert f ops) with
                | Some ops' => hd (FAnd ops') rho <-> hd (FAnd (f :: fs)) rho /\ hd (FAnd ops) rho
                | None => ~ hd (FAnd (f :: fs)) rho end).
    { specialize (IH (finsert f ops)). destruct (conj_loop fs (finsert f ops)).
      - rewrite IH, holds_finsert_and. simpl. tauto.
      - simpl in *. tauto. }
    destruct f; try exact D.
    specialize (IH (finserts fs0 ops)). destruct (conj_loop fs (finserts fs0 ops)).
    - rewrite IH, holds_finserts_and. simpl. tauto.
    - simpl in *. tauto.
  Qed.
  Lemma mk_conj_holds fs rho : hd (mk_conj fs) rho <-> forall g, In g fs -> hd g rho.
  Proof.
    rewrite <- holds_and_in. generalize (conj_loop_holds fs [] rho). unfold mk_conj.
    destruct (conj_loop fs []) as [[|f [|g l]]|]; simpl; tauto.
  Qed.

  Lemma disj_loop_holds fs ops rho :
    match disj_loop fs ops with
    | None => hd (FOr fs) rho
    | Some ops' => hd (FOr ops') rho <-> hd (FOr fs) rho \/ hd (FOr ops) rho
    end.
  Proof.
    revert ops; induction fs as [|f fs IH]; intros ops; [simpl; tauto|].
    cbn [disj_loop].
    destruct (is_true f) eqn:E3; [apply is_true_eq in E3; subst; simpl; tauto|].
    destruct (is_false f) eqn:E1; [apply is_false_eq in E1; subst; simpl; specialize (IH ops);
      destruct (disj_loop fs ops); simpl in *; tauto|].
    assert (D : match disj_loop fs (finsert f ops) with
                | Some ops' => hd (FOr ops') rho <-> hd (FOr (f :: fs)) rho \/ hd (FOr ops) rho
                | None => hd (FOr (f :: fs)) rho end).
    { specialize (IH (finsert f ops)). destruct (disj_loop fs (finsert f ops)).
      - rewrite IH, holds_finsert_or. simpl. tauto.
      - simpl in *. tauto. }
    destruct f; try exact D.
    specialize (IH (finserts fs0 ops)). destruct (disj_loop fs (finserts fs0 ops)).
    - rewrite IH, holds_finserts_or. simpl. tauto.
    - simpl in *. tauto.
  Qed.
  Lemma mk_disj_holds fs rho : hd (mk_disj fs) rho <-> exists g, In g fs /\ hd g rho.
  Proof.
    rewrite <- holds_or_in. generalize (disj_loop_holds fs [] rho). unfold mk_disj.
    destruct (disj_loop fs []) as [[|f [|g l]]|]; simpl; tauto.
  Qed.

  Lemma mk_not_holds f rho : hd (mk_not f) rho <-> ~ hd f rho.
  Proof. destruct f; simpl; try tauto; (split; [tauto|apply NNPP]). Qed.
  Lemma mk_imply_holds f g rho : hd (mk_imply f g) rho <-> (hd f rho -> hd g rho).
  Proof. unfold mk_imply. rewrite mk_or_holds, mk_not_holds. destruct (classic (hd f rho)); tauto. Qed.
  Lemma mk_iff_holds f g rho : hd (mk_iff f g) rho <-> (hd f rho <-> hd g rho).
  Proof. unfold mk_iff. rewrite mk_and_holds, !mk_imply_holds. tauto. Qed.
  Lemma mk_feq_holds f g rho : hd (mk_feq f g) rho <-> (hd f rho <-> hd g rho).
  Proof. exact (mk_iff_holds f g rho). Qed.
  Lemma mk_fneq_holds f g rho : hd (mk_fneq f g) rho <-> ~ (hd f rho <-> hd g rho).
  Proof. unfold mk_fneq. now rewrite mk_not_holds, mk_feq_holds. Qed.

  Lemma neg_relop_holds op a b : relR (neg_relop op) a b <-> ~ relR op a b.
  Proof. destruct op; simpl; try lra; destruct (Req_dec a b); tauto. Qed.

  (** Dropping variables that do not occur is harmless (types are inhabited). *)
  Lemma typed_val_inhabited t : typed_val t 0.
  Proof. destruct t; simpl; auto. exists 0%Z; reflexivity. Qed.

  Lemma mk_forall_holds vs f rho : hd (mk_forall vs f) rho <-> hd (FForall vs f) rho.
  Proof.
    unfold mk_forall. simpl. split; intros H rho' Hoff Hty.
    - (* rho' differs from rho on vs; build the env that differs only on occurring vs *)
      apply (holds_agree M f (fun v => if in_dec var_eq_dec v (fvF f) then rho' v else rho v)).
      + intros v Hv. destruct (in_dec var_eq_dec v (fvF f)); tauto.
      + apply H.
        * intros v Hv. destruct (in_dec var_eq_dec v (fvF f)) as [Hin|]; auto.
          apply Hoff. intro C. apply Hv, filter_In. split; auto. now apply mem_var_In.
        * intros v Hv. apply filter_In in Hv. destruct Hv as [Hv Hm]. apply mem_var_In in Hm.
          destruct (in_dec var_eq_dec v (fvF f)); [auto|tauto].
    - apply (holds_agree M f (fun v => if in_dec var_eq_dec v vs then
                                (if in_dec var_eq_dec v (fvF f) then rho' v else 0) else rho' v)).
      + intros v Hv. destruct (in_dec var_eq_dec v vs); auto.
        destruct (in_dec var_eq_dec v (fvF f)); tauto.
      + apply H.
        * intros v Hv. destruct (in_dec var_eq_dec v vs); [tauto|].
          apply Hoff. intro C. apply filter_In in C. tauto.
        * intros v Hv. destruct (in_dec var_eq_dec v vs); [|tauto].
          destruct (in_dec var_eq_dec v (fvF f)); [|apply typed_val_inhabited].
          apply Hty, filter_In. split; auto. now apply mem_var_In.
  Qed.

  (** Folding of comparisons: correct when the simplifier's difference is the true difference. *)
  Definition fold_sound (fold : expr -> expr -> option dbl) : Prop :=
    forall e1 e2 c, fold e1 e2 = Some c ->
      is_finite c = true /\ forall rho, evalE M e1 rho - evalE M e2 rho = B2R c.

  Lemma relop_on_R op c : is_finite c = true ->
    (relop_on op c = true <-> relR op (B2R c) 0).
  Proof.
    intros F. assert (Nc : is_nan c = false) by (destruct c; simpl in *; congruence).
    assert (Nz : is_nan dzero = false) by reflexivity.
    pose proof (finite_d2e c F) as Ec.
    assert (Ez : d2e dzero = Fin 0) by reflexivity.
    destruct op; cbn [relop_on relR].
    - rewrite deq_spec by assumption. rewrite Ec, Ez.
      split; intros H; [now inversion H|now rewrite H].
    - rewrite negb_true_iff, <- not_true_iff_false, deq_spec by assumption.
      rewrite Ec, Ez. split; intros H C; apply H; [now rewrite C|now inversion C].
    - rewrite dlt_spec by assumption. rewrite Ec, Ez. rewrite ext_lt_fin. lra.
    - rewrite dle_spec by assumption. rewrite Ec, Ez. simpl. lra.
    - rewrite dlt_spec by assumption. rewrite Ec, Ez. rewrite ext_lt_fin. lra.
    - rewrite dle_spec by assumption. rewrite Ec, Ez. simpl. lra.
  Qed.

  Lemma mk_rel_holds fold op e1 e2 rho : fold_sound fold ->
    (hd (mk_rel fold op e1 e2) rho <-> relR op (evalE M e1 rho) (evalE M e2 rho)).
  Proof.
    intros FS. unfold mk_rel. destruct (fold e1 e2) as [c|] eqn:E; [|simpl; reflexivity].
    destruct (FS _ _ _ E) as [F D]. specialize (D rho).
    assert (K : relR op (evalE M e1 rho) (evalE M e2 rho) <-> relR op (B2R c) 0).
    { rewrite <- D. destruct op; simpl; lra. }
    rewrite K, <- (relop_on_R op c F). destruct (relop_on op c); simpl; split; auto; try tauto. discriminate.
  Qed.
End S.
