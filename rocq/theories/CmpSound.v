(** * Entries found by comparison have equal values, when there are no decimal literals *)
From Coq Require Import ZArith Reals Lra Lia List Bool Arith ClassicalDescription.
From Flocq Require Import IEEE754.BinarySingleNaN.
From Verif Require Import Dbl DblProofs Syntax Sem SemProofs FormulaCons FormulaConsProofs IEval StdInterp MathConv IteElimProofs Order ExprAlg SpecAlg ExprAlgProofs AlgClosed.
Import ListNotations.

Lemma thenc_eq c d : thenc c d = Eq -> c = Eq /\ d = Eq.
Proof. destruct c; cbn; auto; discriminate. Qed.
Lemma dcmp_eq a b : is_finite a = true -> is_finite b = true -> dcmp a b = Eq -> B2R a = B2R b.
Proof.
  intros Fa Fb. unfold dcmp. destruct (dlt a b) eqn:E1; [discriminate|]. destruct (dlt b a) eqn:E2; [discriminate|]. intros _.
  assert (Na : is_nan a = false) by (now destruct a). assert (Nb : is_nan b = false) by (now destruct b).
  destruct (Rtotal_order (B2R a) (B2R b)) as [L|[L|L]]; auto; exfalso.
  - assert (X : dlt a b = true) by (apply dlt_spec; auto; rewrite !finite_d2e by auto; apply ext_lt_fin; lra). congruence.
  - assert (X : dlt b a = true) by (apply dlt_spec; auto; rewrite !finite_d2e by auto; apply ext_lt_fin; lra). congruence.
Qed.
Lemma ncmp_eq a b : Nat.compare a b = Eq -> a = b.
Proof. apply Nat.compare_eq. Qed.

Section Cmp.
  Variables (M : interp) (ty : nat -> vtype).
  Notation pE := (plainE ty). Notation pF := (plainF ty). Notation tv := (tyv ty).

  Lemma vcmp_eq v w : tv v -> tv w -> vcmp v w = Eq -> v = w.
  Proof. unfold tyv, vcmp. intros Hv Hw E. apply ncmp_eq in E. destruct v, w; cbn in *. subst. congruence. Qed.
  Lemma vlex_eq vs : forall ws, (forall v, In v vs -> tv v) -> (forall v, In v ws -> tv v) -> lex vcmp vs ws = Eq -> vs = ws.
  Proof.
    induction vs as [|v vs IH]; intros [|w ws] Hv Hw E; try discriminate; auto. cbn [lex] in E. apply thenc_eq in E. destruct E as [E1 E2].
    f_equal; [apply vcmp_eq; auto; [apply Hv|apply Hw]; now left|]. apply IH; auto; intros; [apply Hv|apply Hw]; now right.
  Qed.
  Lemma kind_un o o' a a' : kindE (EUn o a) = kindE (EUn o' a') -> o = o'.
  Proof. destruct o, o'; cbn; auto; discriminate. Qed.
  Lemma kind_bin o o' a a' b b' : kindE (EBin o a b) = kindE (EBin o' a' b') -> o = o'.
  Proof. destruct o, o'; cbn; auto; discriminate. Qed.
  Lemma kind_rel o o' : kindR o = kindR o' -> o = o'.
  Proof. destruct o, o'; cbn; auto; discriminate. Qed.

  Lemma cmp_kind x y : cmpE x y = Eq -> kindE x = kindE y.
  Proof.
    destruct x, y; cbn [cmpE]; try (intros E; apply ncmp_eq in E; exact E); try reflexivity;
      try (intros E; apply thenc_eq in E; destruct E as [E _]; apply ncmp_eq in E; exact E).
  Qed.
  Ltac off E := exfalso; apply cmp_kind in E; cbn in E;
    repeat match type of E with context [match ?x with _ => _ end] => destruct x end; discriminate.

  Lemma cmp_sound :
    (forall e e', pE e -> pE e' -> cmpE e e' = Eq -> forall rho, evalE M e rho = evalE M e' rho) /\
    (forall f f', pF f -> pF f' -> cmpF f f' = Eq -> forall rho, holds M f rho <-> holds M f' rho).
  Proof.
    apply expr_formula_ind2.
    - intros c e' H H' E rho. destruct e' as [d| | | | | | | |]; try (off E).
      cbn [cmpE] in E. apply thenc_eq in E. destruct E as [_ E]. now apply dcmp_eq.
    - intros a b u e' [].
    - intros v e' H H' E rho. destruct e' as [| |w| | | | | |]; try (off E).
      cbn [cmpE] in E. cbn [evalE]. f_equal. now apply vcmp_eq.
    - intros c ts HP e' H H' E rho. destruct e' as [| | |d us| | | | |]; try (off E).
      cbn [cmpE] in E. apply thenc_eq in E. destruct E as [E1 E2]. destruct H as [Fc H], H' as [Fd H'].
      cbn [evalE]. pose proof (dcmp_eq c d Fc Fd E1) as Ecd. rewrite Ecd. clear E1 Ecd Fc Fd c.
      revert us H' E2 H. induction HP as [|[a k] ts Ha HP IH]; intros us H' E2 H; destruct us as [|[b j] us]; try discriminate; auto.
      cbn [lex] in E2. apply thenc_eq in E2. destruct E2 as [E1 E2]. apply thenc_eq in E1. destruct E1 as [E0 E1].
      cbn [fold_right] in *. destruct H as [[Pa Fk] H], H' as [[Pb Fj] H']. rewrite (IH us H' E2 H). cbn [fst] in Ha.
      rewrite (Ha b Pa Pb E0 rho), (dcmp_eq k j Fk Fj E1). reflexivity.
    - intros c ts HP e' H H' E rho. destruct e' as [| | | |d us| | | |]; try (off E).
      cbn [cmpE] in E. apply thenc_eq in E. destruct E as [E1 E2]. destruct H as [Fc H], H' as [Fd H'].
      cbn [evalE]. pose proof (dcmp_eq c d Fc Fd E1) as Ecd. rewrite Ecd. clear E1 Ecd Fc Fd c.
      revert us H' E2 H. induction HP as [|[a k] ts Ha HP IH]; intros us H' E2 H; destruct us as [|[b j] us]; try discriminate; auto.
      cbn [lex] in E2. apply thenc_eq in E2. destruct E2 as [E1 E2]. apply thenc_eq in E1. destruct E1 as [E0 E1].
      cbn [fold_right] in *. destruct H as [[Pa Fk] H], H' as [[Pb Fj] H']. rewrite (IH us H' E2 H). cbn [fst snd] in Ha. destruct Ha as [Ha Hk].
      rewrite (Ha b Pa Pb E0 rho), (Hk j Fk Fj E1 rho). reflexivity.
    - intros o a IH e' H H' E rho. destruct e' as [d| | | | |o' a'|o' a' b'| |]; try (off E).
      + cbn [cmpE] in E. apply thenc_eq in E. destruct E as [E1 E2]. apply ncmp_eq, kind_un in E1. subst o'.
        cbn [evalE]. f_equal. now apply IH.
    - intros o a b IHa IHb e' H H' E rho. destruct e' as [d| | | | |o' a'|o' a' b'| |]; try (off E).
      + cbn [cmpE] in E. apply thenc_eq in E. destruct E as [E1 E2]. apply ncmp_eq, kind_bin in E1. subst o'.
        apply thenc_eq in E2. destruct E2 as [E2 E3]. destruct H as [H1 H2], H' as [H1' H2'].
        cbn [evalE]. f_equal; [now apply IHa|now apply IHb].
    - intros f a b IHf IHa IHb e' H H' E rho. destruct e' as [d| | | | |o' a'|o' a' b'|f' a' b'|]; try (off E).
      + cbn [cmpE] in E. apply thenc_eq in E. destruct E as [E1 E2]. apply thenc_eq in E2. destruct E2 as [E2 E3].
        destruct H as (H0 & H1 & H2), H' as (H0' & H1' & H2').
        specialize (IHf f' H0 H0' E1 rho). specialize (IHa a' H1 H1' E2 rho). specialize (IHb b' H2 H2' E3 rho).
        change (evalE M (EIte f a b) rho) with (if excluded_middle_informative (holds M f rho) then evalE M a rho else evalE M b rho).
        change (evalE M (EIte f' a' b') rho) with (if excluded_middle_informative (holds M f' rho) then evalE M a' rho else evalE M b' rho).
        rewrite IHa, IHb.
        destruct (excluded_middle_informative (holds M f rho)), (excluded_middle_informative (holds M f' rho)); try reflexivity; exfalso; tauto.
    - intros n vs e' H H' E rho. destruct e' as [d| | | | |o' a'|o' a' b'|f' a' b'|m ws]; try (off E).
      + cbn [cmpE] in E. apply thenc_eq in E. destruct E as [E1 E2]. apply ncmp_eq in E1. apply vlex_eq in E2; auto. subst. reflexivity.
    - intros f' H H' E rho. destruct f' as [| | |o a b| | | |]; try destruct o; try discriminate; apply iff_refl.
    - intros f' H H' E rho. destruct f' as [| | |o a b| | | |]; try destruct o; try discriminate; apply iff_refl.
    - intros v f' H H' E rho. destruct f' as [| |w|o a b| | | |]; try destruct o; try discriminate.
      cbn [cmpF] in E. apply vcmp_eq in E; auto. subst. apply iff_refl.
    - intros o a b IHa IHb f' H H' E rho. destruct f' as [| |w|o' a' b'| | | |]; try (destruct o; discriminate).
      cbn [cmpF] in E. apply thenc_eq in E. destruct E as [E1 E2]. apply ncmp_eq, kind_rel in E1. subst o'.
      apply thenc_eq in E2. destruct E2 as [E2 E3]. destruct H as [H1 H2], H' as [H1' H2'].
      change (relR o (evalE M a rho) (evalE M b rho) <-> relR o (evalE M a' rho) (evalE M b' rho)).
      rewrite (IHa a' H1 H1' E2 rho), (IHb b' H2 H2' E3 rho). apply iff_refl.
    - intros fs HP f' H H' E rho. destruct f' as [| |w|o' a' b'|gs| | |]; try destruct o'; try discriminate.
      cbn [cmpF plainF] in *. revert gs H' E H. induction HP as [|g fs Hg HP IH]; intros [|h gs] H' E H; try discriminate; [apply iff_refl|].
      cbn [lex] in E. apply thenc_eq in E. destruct E as [E1 E2]. cbn [fold_right] in *. destruct H as [H1 H2], H' as [H1' H2'].
      specialize (IH gs H2' E2 H2). specialize (Hg h H1 H1' E1 rho). cbn [holds fold_right] in *. tauto.
    - intros fs HP f' H H' E rho. destruct f' as [| |w|o' a' b'| |gs| |]; try destruct o'; try discriminate.
      cbn [cmpF plainF] in *. revert gs H' E H. induction HP as [|g fs Hg HP IH]; intros [|h gs] H' E H; try discriminate; [apply iff_refl|].
      cbn [lex] in E. apply thenc_eq in E. destruct E as [E1 E2]. cbn [fold_right] in *. destruct H as [H1 H2], H' as [H1' H2'].
      specialize (IH gs H2' E2 H2). specialize (Hg h H1 H1' E1 rho). cbn [holds fold_right] in *. tauto.
    - intros f IH f' H H' E rho. destruct f' as [| |w|o' a' b'| | |g|]; try destruct o'; try discriminate.
      cbn [cmpF holds] in *. specialize (IH g H H' E rho). tauto.
    - intros vs f IH f' H H' E rho. destruct f' as [| |w|o' a' b'| | | |ws g]; try destruct o'; try discriminate.
      cbn [cmpF] in *. apply thenc_eq in E. destruct E as [E1 E2]. destruct H as [H1 H2], H' as [H1' H2'].
      apply vlex_eq in E1; auto. subst ws. cbn [holds]. split; intros X rho' A B; apply (IH g H2 H2' E2 rho'); auto.
  Qed.

  Lemma closed_plain : closedE (fun c => is_finite c = true) pE.
  Proof.
    split; auto; try (intros; apply iff_refl).
    - unfold dopp. now rewrite is_finite_Bopp.
    - unfold dabs. now rewrite is_finite_Babs.
    - cbn [plainE]. assert (X : forall A B C : Prop, (B <-> C) -> (A /\ B <-> A /\ C)) by tauto. apply X. clear X.
      induction ts as [|[a k] ts IH]; cbn [fold_right]; [split; [intros _ ? ? []|auto]|]. rewrite IH.
      split; [intros [H1 H2] x y [E|E]; [inversion E; subst; auto|auto]|intros H; split; [apply H; now left|intros; apply H; now right]].
    - cbn [plainE]. assert (X : forall A B C : Prop, (B <-> C) -> (A /\ B <-> A /\ C)) by tauto. apply X. clear X.
      induction ts as [|[a k] ts IH]; cbn [fold_right]; [split; [intros _ ? ? []|auto]|]. rewrite IH.
      split; [intros [H1 H2] x y [E|E]; [inversion E; subst; auto|auto]|intros H; split; [apply H; now left|intros; apply H; now right]].
  Qed.
  Lemma keys_exact t : Forall (exactN M) t -> Forall (keyP pE) t -> Forall (exact M) t.
  Proof.
    intros H1 H2. rewrite Forall_forall in *. intros s Hs. specialize (H1 s Hs). specialize (H2 s Hs).
    destruct s; auto. destruct H2 as (A & B & E). cbn [exact]. intros rho. now apply (proj1 cmp_sound).
  Qed.
End Cmp.

Lemma closed_noite : closedE (fun _ => True) (fun e => hasIteE e = false).
Proof.
  split; auto; try (intros; cbn [hasIteE]; tauto).
  - intros c ts. cbn [hasIteE]. induction ts as [|[a k] ts IH]; cbn [existsb]; [split; [intros _; split; auto; intros ? ? []|auto]|].
    rewrite orb_false_iff, IH. split; [intros [H1 [_ H2]]; split; auto; intros x y [E|E]; [inversion E; subst; auto|eauto]|intros [_ H]; split; [apply (H a k); now left|split; auto; intros; apply (H a0 k0); now right]].
  - intros c ts. cbn [hasIteE]. induction ts as [|[a k] ts IH]; cbn [existsb]; [split; [intros _; split; auto; intros ? ? []|auto]|].
    rewrite orb_false_iff, IH. rewrite orb_false_iff. split; [intros [H1 [_ H2]]; split; auto; intros x y [E|E]; [inversion E; subst; auto|eauto]|intros [_ H]; split; [apply (H a k); now left|split; auto; intros; apply (H a0 b); now right]].
  - intros o a b. cbn [hasIteE]. apply orb_false_iff.
Qed.
