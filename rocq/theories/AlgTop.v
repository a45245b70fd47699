(** * Top-level facts about expression building, substitution and strengthening *)
From Coq Require Import ZArith Reals Lra Lia List Bool ClassicalDescription Classical.
From Flocq Require Import IEEE754.BinarySingleNaN.
From Verif Require Import Dbl DblProofs Syntax Sem SemProofs FormulaCons FormulaConsProofs IEval StdInterp MathConv ExplainProofs IteElimProofs
  Order ExprAlg SpecAlg PowProofs ExprAlgProofs AlgClosed CmpSound Subst SubstProofs DeltaStr DeltaStrProofs.
Import ListNotations.
Local Open Scope R_scope.

Section Top.
  Variables (uf : nat -> list R -> R) (rc : dbl -> dbl -> R) (fpow : dbl -> dbl -> dbl) (n : nat).
  Notation M := (std uf rc).
  Notation ev := (evalE M).
  Notation hd := (holds M).
  Notation df := (defE M stdD).
  Notation dF := (defF M stdD).
  Notation ok := (Forall (exact M)).
  Notation okN := (Forall (exactN M)).

  Lemma lift (ty : nat -> vtype) c rho v : pres M (plainE ty) (plainE ty) c -> yields M stdD c rho v ->
    forall r t, c = (Val r, t) -> okN t -> plainE ty r /\ df r rho /\ ev r rho = v.
  Proof.
    intros P Y r t E Ht. destruct (P r t E Ht) as [Pr Pk]. split; auto. apply (Y r t E).
    now apply (keys_exact M ty).
  Qed.
  Section Lit.
    Variable ty : nat -> vtype.
    Variables (a b : expr) (rho : env).
    Hypotheses (Pa : plainE ty a) (Pb : plainE ty b) (Da : df a rho) (Db : df b rho).
    Let K := closed_plain ty.
    Lemma lit_add r t : mk_add fpow n a b = (Val r, t) -> okN t -> plainE ty r /\ df r rho /\ ev r rho = ev a rho + ev b rho.
    Proof. apply lift; [apply (mk_add_P M fpow _ _ K); auto|apply mk_add_ev; auto]. Qed.
    Lemma lit_sub r t : mk_sub fpow n a b = (Val r, t) -> okN t -> plainE ty r /\ df r rho /\ ev r rho = ev a rho - ev b rho.
    Proof. apply lift; [apply (mk_sub_P M fpow _ _ K); auto|apply mk_sub_ev; auto]. Qed.
    Lemma lit_neg r t : mk_neg fpow n a = (Val r, t) -> okN t -> plainE ty r /\ df r rho /\ ev r rho = - ev a rho.
    Proof. apply lift; [apply (mk_neg_P M fpow _ _ K); auto|apply mk_neg_ev; auto]. Qed.
    Lemma lit_mul r t : mk_mul fpow n a b = (Val r, t) -> okN t -> plainE ty r /\ df r rho /\ ev r rho = ev a rho * ev b rho.
    Proof. apply lift; [apply (mk_mul_P M fpow _ _ K); auto|apply mk_mul_ev; auto]. Qed.
    Lemma lit_un o r t : un_def o (ev a rho) -> mk_un o a = (Val r, t) -> okN t -> plainE ty r /\ df r rho /\ ev r rho = unR o (ev a rho).
    Proof. intros U. apply lift; [apply (mk_un_P M _ _ K); auto|apply mk_un_ev; auto]. Qed.
    Lemma lit_bin o r t : bin_def o (ev a rho) (ev b rho) -> mk_bin fpow o a b = (Val r, t) -> okN t ->
      plainE ty r /\ df r rho /\ ev r rho = binR o (ev a rho) (ev b rho).
    Proof. intros U. apply lift; [apply (mk_bin_P M fpow _ _ K); auto|apply mk_bin_ev; auto]. Qed.
    Lemma lit_rel o r t : mk_relm fpow n o a b = (Val r, t) -> okN t ->
      plainF ty r /\ dF r rho /\ (hd r rho <-> relR o (ev a rho) (ev b rho)).
    Proof.
      intros E Ht. destruct (mk_relm_P M fpow _ _ K (plainF ty) n o a b I I (conj Pa Pb) Pa Pb r t E Ht) as [Pr Pk].
      split; auto. apply (mk_relm_ev uf rc fpow n o a b rho r t E); auto. now apply (keys_exact M ty).
    Qed.
  End Lit.

  (** Substitution *)
  Lemma rel_top sE sF rho : rel uf rc sE sF rho [] rho (updated M sE sF rho).
  Proof. split; [intros v _; reflexivity|intros v; reflexivity]. Qed.
  Lemma inv_top sE sF : inv sE sF [] sE sF. Proof. split; intros v _; reflexivity. Qed.
  Lemma updated_nil rho v : updated M [] [] rho v = rho v.
  Proof. unfold updated, imgE, imgF, image. cbn [find]. destruct (vty v); reflexivity. Qed.
  Lemma subst_top_E sE sF e rho r t : sokE sE sF [] e -> (forall v, In v (fvE e) -> idef M stdD sE sF rho v) ->
    df e (updated M sE sF rho) -> SubstituteE fpow n sE sF e = (Val r, t) -> ok t ->
    df r rho /\ ev r rho = ev e (updated M sE sF rho).
  Proof.
    intros S Id D E Ht.
    assert (G : substE fpow n sE sF e = (Val r, t) -> df r rho /\ ev r rho = ev e (updated M sE sF rho)).
    { intros E'. apply (proj1 (subst_ev uf rc fpow n sE sF rho) e [] sE sF rho _ (inv_top sE sF) (rel_top sE sF rho) S) with (t := t); auto.
      intros v Hv _. auto. }
    unfold SubstituteE in E. destruct sE as [|p sE], sF as [|q sF]; auto.
    apply ret_val in E. destruct E as [-> _]. split.
    - apply (proj1 (def_agree M stdD) e (updated M [] [] rho)); auto. intros v _. apply updated_nil.
    - apply evalE_agree. intros v _. symmetry. apply updated_nil.
  Qed.
  Lemma subst_top_F sE sF f rho r t : sokF sE sF [] f -> (forall v, In v (fvF f) -> idef M stdD sE sF rho v) ->
    dF f (updated M sE sF rho) -> SubstituteF fpow n sE sF f = (Val r, t) -> ok t ->
    dF r rho /\ (hd r rho <-> hd f (updated M sE sF rho)).
  Proof.
    intros S Id D E Ht.
    assert (G : substF fpow n sE sF f = (Val r, t) -> dF r rho /\ (hd r rho <-> hd f (updated M sE sF rho))).
    { intros E'. apply (proj2 (subst_ev uf rc fpow n sE sF rho) f [] sE sF rho _ (inv_top sE sF) (rel_top sE sF rho) S) with (t := t); auto.
      intros v Hv _. auto. }
    unfold SubstituteF in E. destruct sE as [|p sE], sF as [|q sF]; auto.
    apply ret_val in E. destruct E as [-> _]. split.
    - apply (proj2 (def_agree M stdD) f (updated M [] [] rho)); auto. intros v _. apply updated_nil.
    - apply holds_agree. intros v _. symmetry. apply updated_nil.
  Qed.

  (** Strengthening and weakening *)
  Lemma strong_top k d f rho g t : is_finite d = true -> 0 <= B2R d -> hasIteF f = false -> dF f rho ->
    DeltaStrengthen fpow n k f d = (Val g, t) -> ok t ->
    dF g rho /\ (hd g rho -> hd f rho) /\ (0 < B2R d -> (hd g rho <-> slack M (B2R d) f rho)).
  Proof.
    intros Fd Nn Hi D E Ht. destruct (strengthen_ev uf rc fpow n k d f rho g t Fd Hi D E Ht) as [D1 V1].
    split; auto. split.
    - intros H. apply V1 in H. destruct H as [[_ H]|[Nz H]]; auto. apply (slack_mono M f (B2R d) rho); auto. lra.
    - intros Hp. rewrite V1. split; [intros [[Z _]|[_ H]]; [lra|auto]|]. intros H. right. split; auto. lra.
  Qed.
  Lemma weak_top k d f rho g t : is_finite d = true -> 0 <= B2R d -> hasIteF f = false -> dF f rho ->
    DeltaWeaken fpow n k f d = (Val g, t) -> ok t ->
    dF g rho /\ (hd f rho -> hd g rho) /\ (0 < B2R d -> (hd g rho <-> slack M (- B2R d) f rho)).
  Proof.
    intros Fd Nn Hi D E Ht. unfold DeltaWeaken in E.
    assert (Fo : is_finite (dopp d) = true) by (unfold dopp; now rewrite is_finite_Bopp).
    assert (Eo : B2R (dopp d) = - B2R d) by (unfold dopp; apply B2R_Bopp).
    destruct (strengthen_ev uf rc fpow n k (dopp d) f rho g t Fo Hi D E Ht) as [D1 V1]. rewrite Eo in V1.
    split; auto. split.
    - intros H. apply V1. destruct (Req_dec (- B2R d) 0) as [Z|Nz]; [left; auto|right; split; auto].
      apply (slack_mono M f (B2R d) rho); auto. lra.
    - intros Hp. rewrite V1. split; [intros [[Z _]|[_ H]]; [lra|auto]|]. intros H. right. split; auto. lra.
  Qed.
End Top.
