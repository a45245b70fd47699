(** * The theory solver returns boxes without empty components (behind C33) *)
From Coq Require Import ZArith Reals Lra Lia List Bool.
From Flocq Require Import Core.Core IEEE754.BinarySingleNaN.
From Verif Require Import Dbl DblProofs Syntax Sem SemProofs Interval IntervalProofs MathConv MathConvProofs IEval IEvalProofs Contr ContrProofs IbexConv Icp IcpProofs IcpTop IcpPar IcpParProofs IcpParTop Filter FilterProofs Theory SpecWeak ExplainProofs TheoryProofs TheoryUsed TheoryTop TheorySat ContrFull.
Import ListNotations.
Local Notation R := Rdefinitions.R.
Local Open Scope R_scope.

Definition aon (b : box) : Prop := all_empty b \/ b_full b.
Lemma aon_full b : box_ok b -> aon b -> b_empty b = false -> b_full b.
Proof. intros K [H|H] E; auto. rewrite (all_empty_b b K H) in E. discriminate. Qed.
Lemma all_empty_get b i : all_empty b -> b_get b i = IEmpty.
Proof. intros H. unfold b_get. destruct (nth_in_or_default i (bvals b) IEmpty) as [Hi|Hi]; [|exact Hi]. unfold all_empty in H. rewrite Forall_forall in H. exact (H _ Hi). Qed.
Lemma all_empty_sub b b' : box_ok b' -> box_sub b' b -> all_empty b -> all_empty b'.
Proof.
  intros K [_ S] H. unfold all_empty. apply Forall_forall. intros x Hx. destruct (In_nth _ _ IEmpty Hx) as (i & Hi & <-). change (b_get b' i = IEmpty).
  pose proof (box_ok_get b' i K) as Ki. destruct (b_get b' i) as [|l u] eqn:E; [reflexivity|exfalso]. destruct (i_ok_member _ Ki eq_refl) as [y Hy]. rewrite <- E in Hy.
  apply S in Hy. rewrite (all_empty_get b i H) in Hy. exact Hy.
Qed.
Lemma narrowed_aon P i b b' : aon b -> narrowed P i b b' -> aon b'.
Proof.
  intros A [[-> _]|(y & -> & Ky & Ey & Hy)]; [left; apply set_empty_all|]. destruct A as [A|A]; [exfalso|right; apply b_set_full; auto].
  destruct y as [|l u]; [discriminate|]. destruct (i_ok_member _ Ky eq_refl) as [z Hz]. apply Hy in Hz. destruct Hz as [Hz _]. rewrite (all_empty_get b i A) in Hz. exact Hz.
Qed.
Lemma filter_aon M f b r b' : rc_ok M -> box_ok b -> (forall v, In v (fvF f) -> In v (bvars b)) -> finF f -> filter_assertion f b = Some (r, b') -> aon b -> aon b'.
Proof.
  intros RC K Hv Hf E A. unfold filter_assertion in E. destruct (filt_spec M b RC K f true r b' Hv Hf E) as [[_ ->]|(v & i & P & _ & _ & Hn & _)]; [exact A|].
  exact (narrowed_aon P i b b' A Hn).
Qed.

Section Full.
  Variables (M : interp) (D : pdom) (Orc : oracles) (term : list ival -> list ival -> bool) (m : nat).
  Variables (esub : expr -> expr -> expr) (eneg : expr -> expr) (n : nat).
  Variables (fs : list formula) (b0 : box).
  Hypothesis RC : rc_ok M.
  Hypothesis Hfv : forall f v, In f fs -> In v (fvF f) -> In v (bvars b0).
  Hypothesis Hfin : forall f, In f fs -> finF f.
  Hypothesis Hlit : forall f c, In f fs -> lit_ctc esub eneg n (bvars b0) f = Some c -> c_ok M D Orc (bvars b0) c.
  Variable ev : formula -> box -> option (etype * ival).
  Variables (mid : dbl -> dbl -> dbl) (precision : dbl).
  Hypothesis Hmid : mid_ok mid.
  Hypothesis HR0 : int_range b0.
  Hypothesis NI : no_ints b0.

  Definition okf (b : box) : Prop := okb b0 b /\ aon b.
  Lemma cin_true vars : forall c, c_in (fun _ => True) vars c.
  Proof. fix IH 1. intros c. destruct c as [|idx|cs|f|gs|f|cs|cs|cs]; cbn [c_in]; auto; induction cs as [|x l Il]; cbn [fold_right]; auto. Qed.
  Lemma pr_okf c : c_ok M D Orc (bvars b0) c -> forall t t', okf (cs_box t) -> prune Orc term m c t = Some t' -> okf (cs_box t').
  Proof.
    intros Hc t t' [[A B] F] Et. assert (X : keeps (c_sem M D c) t t') by (eapply prune_keeps; eauto; rewrite (proj1 B); auto).
    assert (Sb : box_sub (cs_box t') (cs_box t)) by (split; apply X).
    split; [split; [apply X|eapply box_sub_trans; [exact Sb|exact B]]|]. destruct F as [F|F]; [left; exact (all_empty_sub _ _ (k_ok _ _ _ X) Sb F)|].
    destruct (prune_fr M D Orc term (fun _ => True) (bvars b0) m c t t' A F (proj1 B) Hc (cin_true _ c) Et) as [_ _ _ [E|[E _]]]; [left|right]; exact E.
  Qed.
  Lemma br_okf b1 act d l r : okf b1 -> branch_largest mid b1 act = Some (Some (d, l, r)) -> okf l /\ okf r.
  Proof.
    intros [[A B] F] E1. destruct (branch_largest_sound mid Hmid b1 act d l r A (int_range_sub _ _ B HR0) E1) as (X1 & X2 & X3 & X4 & _).
    destruct (branch_largest_some mid b1 act d l r E1) as [Eb _]. destruct (b_bisect_inv _ _ _ _ _ Eb) as (v & lo & hi & x & y & Ev & Eg & Hb & El & Er & Hc).
    assert (Fb : b_full b1) by (destruct F as [F|F]; [rewrite (all_empty_get b1 d F) in Eg; discriminate|exact F]).
    pose proof (box_ok_get b1 d A) as Kd. rewrite Eg in Kd.
    assert (XY : i_empty x = false /\ i_empty y = false).
    { destruct Hc as [[Tv Hc]|[Tv Hc]].
      - destruct (bisectable_mid mid Hmid lo hi Kd Hb) as (Fm & L1 & L2). injection Hc as <- <-. destruct (i_ok_nan _ _ Kd) as [N1 N2].
        assert (Nm : is_nan (mid lo hi) = false) by (destruct (mid lo hi); auto; discriminate). rewrite (finite_d2e _ Fm) in *.
        split; apply (imem_nonempty (B2R (mid lo hi))); apply mk_ival_mem; auto; rewrite (finite_d2e _ Fm); split; try (apply ext_lt_le; assumption); cbn; lra.
      - exfalso. assert (Hv : In v (bvars b0)) by (rewrite <- (proj1 B); eapply nth_error_In; eauto). pose proof (NI v Hv) as Y. destruct Tv as [T|T]; rewrite T in Y; discriminate. }
    split; (split; [split; [assumption|eapply box_sub_trans; eauto]|right; subst; apply b_set_full; tauto]).
  Qed.

  Definition search_full (search : contractor -> cstat -> option (bool * cstat)) : Prop :=
    forall c s r s', c_ok M D Orc (bvars b0) c -> okf (cs_box s) -> search c s = Some (r, s') -> b_empty (cs_box s') = false -> b_full (cs_box s').
  Lemma seq_full k lf : search_full (search_seq Orc term m ev mid precision k lf fs).
  Proof.
    intros c s r s' Hc Kb Es Ne. unfold search_seq, icp_seq in Es. destruct r.
    - assert (K0 : Forall (fun p : box * option nat => okf (fst p)) [(cs_box s, None)]) by (constructor; [exact Kb|constructor]).
      destruct (loop_accept _ ev _ precision fs okf (pr_okf c Hc) br_okf _ _ _ _ _ K0 Es) as ([[X1 X2] X4] & X3 & _). apply aon_full; auto.
    - exfalso. assert (b_empty (cs_box s') = true) by (eapply loop_false_empty; [|exact Es]; discriminate). congruence.
  Qed.
  Lemma par_full lf jobs sched : search_full (search_par Orc term m ev mid precision lf jobs sched fs).
  Proof.
    intros c s r s' Hc Kb Es Ne. unfold search_par in Es. destruct r.
    - destruct (par_accept _ ev mid precision fs okf (pr_okf c Hc) br_okf lf jobs sched s s') as ([[X1 X2] X4] & X3); auto. apply aon_full; auto.
    - exfalso. rewrite (par_false_empty _ ev mid precision fs lf jobs sched s s' Es) in Ne. discriminate.
  Qed.

  Lemma build_aon l : incl l fs -> forall s acc s' cs, okf (cs_box s) -> build_loop esub eneg n l s acc = Some (s', Some cs) -> okf (cs_box s').
  Proof.
    induction l as [|f l IH]; intros Hl s acc s' cs Ks; cbn [build_loop]; [intros [= <- _]; exact Ks|].
    assert (Hf : In f fs) by (apply Hl; left; auto). assert (Hl' : incl l fs) by (intros x Hx; apply Hl; right; auto).
    destruct (filter_assertion f (cs_box s)) as [[r b']|] eqn:Ef; cbn [bind]; [|discriminate].
    assert (X : okf b').
    { destruct Ks as [[Ks1 Ks2] Ks3]. assert (Hv : forall v, In v (fvF f) -> In v (bvars (cs_box s))) by (rewrite (proj1 Ks2); intros v; apply Hfv; auto).
      destruct (filter_sub M f (cs_box s) r b' RC Ks1 Hv (Hfin f Hf) Ef) as (X1 & X2). split; [split; [exact X1|eapply box_sub_trans; eauto]|]. exact (filter_aon M f (cs_box s) r b' RC Ks1 Hv (Hfin f Hf) Ef Ks3). }
    destruct r.
    - destruct (lit_ctc esub eneg n (bvars b') f); cbn [bind]; [|discriminate]. apply IH; auto. destruct (b_eqb _ _); [exact X|rewrite add_used_box; exact X].
    - destruct (b_empty b'); [discriminate|]. apply IH; auto. rewrite add_used_box. exact X.
    - apply IH; auto.
  Qed.

  Theorem theory_full wl search b : box_ok b0 -> b_full b0 -> search_full search -> theory_check esub eneg n wl false search b0 fs = Some (TSat b) -> b_full b.
  Proof.
    intros K F0 Hs E1. unfold theory_check in E1.
    destruct (build_contractor esub eneg n wl false fs (cs_new b0 None)) as [[s o]|] eqn:Eb; cbn [bind] in E1; [|discriminate].
    destruct o as [c|]; [|discriminate]. destruct (search c s) as [[r s']|] eqn:Es; cbn [bind snd] in E1; [|discriminate].
    destruct (b_empty (cs_box s')) eqn:Em; [discriminate|]. injection E1 as <-.
    assert (Ok0 : okf (cs_box (cs_new b0 None))) by (split; [split; [exact K|apply box_sub_refl]|right; exact F0]).
    assert (X : okf (cs_box s) /\ c_ok M D Orc (bvars b0) c).
    { unfold build_contractor in Eb. remember fs as l0 eqn:Ef in Eb. destruct l0 as [|f0 fs0].
      - injection Eb as <- <-. split; [exact Ok0|apply mk_integer_ok].
      - rewrite Ef in Eb. destruct (build_loop esub eneg n fs (cs_new b0 None) []) as [[s1 ol]|] eqn:El; cbn [bind] in Eb; [|discriminate].
        destruct ol as [l|]; [|discriminate]. injection Eb as <- <-.
        pose proof (build_aon fs (incl_refl _) (cs_new b0 None) [] s1 l Ok0 El) as Y1. split; [exact Y1|].
        pose proof (build_loop_ctcs M D Orc esub eneg n fs b0 RC Hfv Hfin Hlit fs (incl_refl _) (cs_new b0 None) [] s1 l K eq_refl (Forall_nil _) El) as Fc.
        assert (F' : Forall (fun c => c_ok M D Orc (bvars b0) c /\ c_plain c) (l ++ [mk_integer (cs_box s1)])).
        { apply Forall_app. split; auto. constructor; [|constructor]. split; [rewrite <- (proj1 (proj2 (proj1 Y1))); apply mk_integer_ok|].
          destruct (mk_integer_vars b0 (cs_box s1) (proj1 (proj2 (proj1 Y1)))) as [->|[-> _]]; exact I. }
        assert (C : forall l', Forall (fun c => c_ok M D Orc (bvars b0) c /\ c_plain c) l' -> c_ok M D Orc (bvars b0) (CFix l') /\ c_ok M D Orc (bvars b0) (CWork l')).
        { intros l' H. cbn [c_ok]. assert (X : fold_right (fun c' acc => c_ok M D Orc (bvars b0) c' /\ acc) True l') by (induction H as [|c l' [H1 H2] H IH]; cbn [fold_right]; auto). tauto. }
        apply (flatten_okc M D Orc b0) in F'. destruct wl.
        + unfold mk_work. destruct (c_flatten (l ++ [mk_integer (cs_box s1)])); [exact I|]. apply C. exact F'.
        + unfold mk_fix. destruct (c_flatten (l ++ [mk_integer (cs_box s1)])); [exact I|]. apply C. exact F'. }
    destruct X as [Kb Hc]. exact (Hs c s r s' Hc Kb Es Em).
  Qed.
End Full.
