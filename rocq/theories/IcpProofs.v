(** Branch and prune never loses a "good" box; what an accepted box looks like. *)
From Coq Require Import ZArith Reals Lra Lia List Bool.
From Flocq Require Import Core.Core IEEE754.BinarySingleNaN.
From Verif Require Import Dbl DblProofs Syntax Sem SemProofs Interval IntervalProofs MathConv MathConvProofs IEval IEvalProofs Contr ContrProofs Icp.
Import ListNotations.
Local Open Scope R_scope.

Lemma bits_find_none b : forall n i, bits_find b i n = None <-> forall j, (i <= j < i + n)%nat -> b j = false.
Proof.
  induction n as [|n IH]; intros i; cbn [bits_find].
  - split; [intros _ j Hj; lia|auto].
  - destruct (b i) eqn:E.
    + split; [discriminate|]. intros H. rewrite (H i) in E by lia. discriminate.
    + rewrite IH. split; intros H j Hj.
      * destruct (Nat.eq_dec i j) as [<-|N]; auto. apply H. lia.
      * apply H. lia.
Qed.
Lemma bits_none_spec n act : bits_none n act = true <-> forall j, (j < n)%nat -> act j = false.
Proof.
  unfold bits_none. destruct (bits_find act 0 n) eqn:E.
  - split; [discriminate|]. intros H. assert (X : bits_find act 0 n = None) by (apply bits_find_none; intros j Hj; apply H; lia). congruence.
  - split; auto. intros _ j Hj. apply (proj1 (bits_find_none act n 0) E). lia.
Qed.

Section Icp.
  Variable pr : cstat -> option cstat.
  Variable ev : formula -> box -> option (etype * ival).
  Variable brancher : box -> bits -> option (option (nat * box * box)).
  Variable precision : dbl.
  Variable fs : list formula.
  Notation step := (icp_step pr ev brancher precision fs).
  Notation evb := (eval_box ev precision fs).

  Definition o_state (o : outcome) : cstat := match o with Infeasible s | Accept s | Split _ _ _ s => s end.
  (** What the search has established about a box it returns. *)
  Definition accepted (s : cstat) : Prop :=
    b_empty (cs_box s) = false /\ exists act, evb s = EBits act /\
      (bits_none (b_size (cs_box s)) act = true \/ brancher (cs_box s) act = Some None).

  Lemma step_inv s o : step s = Some o -> exists s1, pr s = Some s1 /\
    match o with
    | Infeasible s2 => (b_empty (cs_box s1) = true /\ s2 = s1) \/ (b_empty (cs_box s1) = false /\ evb s1 = EUnsat s2)
    | Accept s2 => s2 = s1 /\ accepted s1
    | Split d l r s2 => s2 = s1 /\ b_empty (cs_box s1) = false /\ exists act, evb s1 = EBits act /\ brancher (cs_box s1) act = Some (Some (d, l, r))
    end.
  Proof.
    unfold icp_step. destruct (pr s) as [s1|]; cbn [bind]; [|discriminate]. intros E. exists s1. split; auto.
    destruct (b_empty (cs_box s1)) eqn:Em. { injection E as <-. auto. }
    destruct (evb s1) as [|s2|act] eqn:Ev; [discriminate|injection E as <-; auto|].
    destruct (bits_none (b_size (cs_box s1)) act) eqn:Eb. { injection E as <-. split; auto. split; auto. exists act. auto. }
    destruct (brancher (cs_box s1) act) as [[[[d l] r]|]|] eqn:Er; cbn [bind] in E; [| |discriminate]; injection E as <-.
    - split; auto. split; auto. exists act; auto.
    - split; auto. split; auto. exists act; auto.
  Qed.
  Lemma eval_loop_unsat fs' : forall s act s2, eval_loop ev precision fs' s act = EUnsat s2 ->
    exists f i, In f fs' /\ ev f (cs_box s) = Some (UNSAT, i) /\ s2 = add_used (cs_with_box s (b_set_empty (cs_box s))) f.
  Proof.
    induction fs' as [|f fs' IH]; intros s act s2 E; cbn [eval_loop] in E; [discriminate|].
    assert (K : forall act', eval_loop ev precision fs' s act' = EUnsat s2 ->
      exists g i, In g (f :: fs') /\ ev g (cs_box s) = Some (UNSAT, i) /\ s2 = add_used (cs_with_box s (b_set_empty (cs_box s))) g).
    { intros act' E'. destruct (IH _ _ _ E') as (g & i & A & B & C). exists g, i. split; auto. right; auto. }
    destruct (ev f (cs_box s)) as [[[] i]|] eqn:Ef; try discriminate; eauto.
    injection E as <-. exists f, i. split; [left|]; auto.
  Qed.
  Lemma eval_loop_bits fs' : forall s act act', eval_loop ev precision fs' s act = EBits act' ->
    (forall j, act j = true -> act' j = true) /\
    forall f, In f fs' -> exists t i, ev f (cs_box s) = Some (t, i) /\ t <> UNSAT /\
      (t = UNKNOWN -> wide precision f i = true -> forall j, uses (bvars (cs_box s)) f j = true -> act' j = true).
  Proof.
    induction fs' as [|f fs' IH]; intros s act act' E; cbn [eval_loop] in E.
    - injection E as <-. split; auto. intros f [].
    - destruct (ev f (cs_box s)) as [[[] i]|] eqn:Ef; try discriminate.
      + destruct (IH _ _ _ E) as [A B]. split; auto. intros g [<-|Hg]; auto. exists VALID, i. split; auto. split; discriminate.
      + destruct (IH _ _ _ E) as [A B]. destruct (wide precision f i) eqn:Ew.
        * split; [intros j Hj; apply A; unfold bits_or; rewrite Hj; auto|]. intros g [<-|Hg]; auto. exists UNKNOWN, i. split; auto. split; [discriminate|].
          intros _ _ j Hj. apply A. unfold bits_or. rewrite Hj. apply orb_true_r.
        * split; auto. intros g [<-|Hg]; auto. exists UNKNOWN, i. split; auto. split; [discriminate|]. congruence.
  Qed.

  (** ** Loss-freedom, abstractly *)
  Section Good.
    Variables (ok G G' : box -> Prop) (R : cstat -> Prop).
    Hypothesis R_same : forall s b bp o, R (mkCs b bp o (cs_used s) (cs_wit s)) <-> R s.
    Hypothesis R_used : forall s f, R (add_used s f) -> R s.
    Hypothesis R_pr : forall s s', ok (cs_box s) -> pr s = Some s' -> R s' -> R s.
    Hypothesis ok_pr : forall s s', ok (cs_box s) -> pr s = Some s' -> ok (cs_box s').
    Hypothesis ok_br : forall b act d l r, ok b -> brancher b act = Some (Some (d, l, r)) -> ok l /\ ok r.
    Hypothesis G_pr : forall s s', ok (cs_box s) -> G (cs_box s) -> pr s = Some s' -> R s' -> b_empty (cs_box s') = false /\ G' (cs_box s').
    Hypothesis G_ev : forall s f i, In f fs -> ok (cs_box s) -> G' (cs_box s) -> ev f (cs_box s) = Some (UNSAT, i) ->
      R (add_used (cs_with_box s (b_set_empty (cs_box s))) f) -> False.
    Hypothesis G_br : forall b act d l r, ok b -> G' b -> brancher b act = Some (Some (d, l, r)) -> G l \/ G r.

    Lemma R_with_box s b : R (cs_with_box s b) <-> R s.
    Proof. unfold cs_with_box. apply R_same. Qed.
    Lemma step_R s o : ok (cs_box s) -> step s = Some o -> R (o_state o) -> R s.
    Proof.
      intros K E H. destruct (step_inv _ _ E) as (s1 & E1 & X). apply (R_pr s s1 K E1). destruct o as [s2|s2|d l r s2]; cbn [o_state] in H.
      - destruct X as [[_ ->]|[_ X]]; auto. destruct (eval_loop_unsat _ _ _ _ X) as (f & i & _ & _ & ->). apply R_used in H. apply R_with_box in H. auto.
      - destruct X as [-> _]. auto.
      - destruct X as [-> _]. auto.
    Qed.
    Lemma step_good s o : ok (cs_box s) -> G (cs_box s) -> step s = Some o -> R (o_state o) ->
      match o with Infeasible _ => False | Accept _ => True | Split _ l r _ => G l \/ G r end.
    Proof.
      intros K HG E H. destruct (step_inv _ _ E) as (s1 & E1 & X). destruct o as [s2|s2|d l r s2]; cbn [o_state] in H; auto.
      - destruct X as [[Em ->]|[Em X]].
        + destruct (G_pr s s1 K HG E1 H) as [C _]. congruence.
        + destruct (eval_loop_unsat _ _ _ _ X) as (f & i & Hf & Ef & ->).
          assert (R1 : R s1) by (apply R_used, R_with_box in H; auto).
          destruct (G_pr s s1 K HG E1 R1) as [_ C]. apply (G_ev s1 f i); auto. eapply ok_pr; eauto.
      - destruct X as (-> & Em & act & _ & Er). destruct (G_pr s s1 K HG E1 H) as [_ C]. apply (G_br (cs_box s1) act d); auto. apply (ok_pr s s1); auto.
    Qed.
    Lemma step_ok_boxes s o : ok (cs_box s) -> step s = Some o ->
      match o with Infeasible _ => True | Accept s1 => ok (cs_box s1) | Split _ l r _ => ok l /\ ok r end.
    Proof.
      intros K E. destruct (step_inv _ _ E) as (s1 & E1 & X). destruct o as [s2|s2|d l r s2]; auto.
      - destruct X as [-> _]. eauto.
      - destruct X as (-> & _ & act & _ & Er). eauto.
    Qed.
    Lemma loop_R n : forall stack lf s r s', Forall (fun p => ok (fst p)) stack ->
      icp_loop pr ev brancher precision n fs stack lf s = Some (r, s') -> R s' -> R s.
    Proof.
      induction n as [|n IH]; intros stack lf s r s' K E H; cbn [icp_loop] in E; [discriminate|].
      destruct stack as [|[b bp] st]; [injection E as <- <-; auto|].
      inversion K as [|x y K1 K2]; subst. cbn [fst] in K1.
      set (s0 := mkCs b bp (cs_out s) (cs_used s) (cs_wit s)) in *. assert (R0 : R s0 <-> R s) by apply R_same.
      destruct (step s0) as [o|] eqn:Eo; cbn [bind] in E; [|discriminate].
      apply R0. apply (step_R s0 o); auto. pose proof (step_ok_boxes s0 o K1 Eo) as Kb. destruct o as [s1|s1|d l r' s1]; cbn [o_state].
      - eapply IH; eauto.
      - injection E as <- <-. auto.
      - destruct Kb as [Kl Kr]. eapply IH; [|exact E|exact H]. destruct lf; repeat constructor; auto.
    Qed.
    Theorem loop_good n : forall stack lf s s', Forall (fun p => ok (fst p)) stack ->
      icp_loop pr ev brancher precision n fs stack lf s = Some (false, s') -> R s' -> ~ Exists (fun p => G (fst p)) stack.
    Proof.
      induction n as [|n IH]; intros stack lf s s' K E H; cbn [icp_loop] in E; [discriminate|].
      destruct stack as [|[b bp] st]; [intros C; inversion C|].
      inversion K as [|x y K1 K2]; subst. cbn [fst] in K1.
      set (s0 := mkCs b bp (cs_out s) (cs_used s) (cs_wit s)) in *.
      destruct (step s0) as [o|] eqn:Eo; cbn [bind] in E; [|discriminate].
      pose proof (step_ok_boxes s0 o K1 Eo) as Kb. intros C. apply Exists_cons in C. cbn [fst] in C.
      destruct o as [s1|s1|d l r' s1].
      - destruct C as [C|C]; [|eapply IH; eauto]. apply (step_good s0 (Infeasible s1)); auto. cbn [o_state]. eapply loop_R; eauto.
      - discriminate.
      - destruct Kb as [Kl Kr].
        assert (Ks : Forall (fun p : box * option nat => ok (fst p)) (if lf then (r', Some d) :: (l, Some d) :: st else (l, Some d) :: (r', Some d) :: st)) by (destruct lf; repeat constructor; auto).
        apply (IH _ _ _ _ Ks E H). destruct C as [C|C].
        + assert (X : G l \/ G r') by (apply (step_good s0 (Split d l r' s1)); auto; cbn [o_state]; eapply loop_R; eauto).
          destruct lf; destruct X; rewrite !Exists_cons; cbn [fst]; tauto.
        + destruct lf; rewrite !Exists_cons; tauto.
    Qed.
    (** Every box the search visits is [ok]; a returned one was accepted. *)
    Theorem loop_accept n : forall stack lf s s', Forall (fun p => ok (fst p)) stack ->
      icp_loop pr ev brancher precision n fs stack lf s = Some (true, s') -> ok (cs_box s') /\ accepted s' /\ exists s0, ok (cs_box s0) /\ pr s0 = Some s'.
    Proof.
      induction n as [|n IH]; intros stack lf s s' K E; cbn [icp_loop] in E; [discriminate|].
      destruct stack as [|[b bp] st]; [discriminate|].
      inversion K as [|x y K1 K2]; subst. cbn [fst] in K1.
      set (s0 := mkCs b bp (cs_out s) (cs_used s) (cs_wit s)) in *.
      destruct (step s0) as [o|] eqn:Eo; cbn [bind] in E; [|discriminate].
      pose proof (step_ok_boxes s0 o K1 Eo) as Kb. destruct o as [s1|s1|d l r' s1].
      - eapply IH; eauto.
      - injection E as <-. destruct (step_inv _ _ Eo) as (s2 & E2 & -> & A). split; auto. split; auto. exists s0. auto.
      - destruct Kb as [Kl Kr]. eapply IH; [|exact E]. destruct lf; repeat constructor; auto.
    Qed.
    (** With 'no solution' the status holds an empty box, provided something was explored. *)
    Lemma add_used_box' s f : cs_box (add_used s f) = cs_box s.
    Proof. apply add_used_box. Qed.
    Theorem loop_false_empty n : forall stack lf s s', (stack = [] -> b_empty (cs_box s) = true) ->
      icp_loop pr ev brancher precision n fs stack lf s = Some (false, s') -> b_empty (cs_box s') = true.
    Proof.
      induction n as [|n IH]; intros stack lf s s' K E; cbn [icp_loop] in E; [discriminate|].
      destruct stack as [|[b bp] st]; [injection E as <-; auto|]. clear K.
      set (s0 := mkCs b bp (cs_out s) (cs_used s) (cs_wit s)) in *.
      destruct (step s0) as [o|] eqn:Eo; cbn [bind] in E; [|discriminate]. destruct o as [s1|s1|d l r' s1].
      - eapply IH; [|exact E]. intros _. destruct (step_inv _ _ Eo) as (s2 & E2 & X). destruct X as [[Em ->]|[Em X]]; auto.
        destruct (eval_loop_unsat _ _ _ _ X) as (f & i & _ & _ & ->). rewrite add_used_box. cbn [cs_with_box cs_box]. 
        unfold b_empty, b_set_empty in *. cbn [bvals]. destruct (bvals (cs_box s2)); reflexivity.
      - discriminate.
      - eapply IH; [|exact E]. destruct lf; discriminate.
    Qed.
  End Good.
End Icp.

(** ** BranchLargestFirst *)
Section Branch.
  Variable mid : dbl -> dbl -> dbl.
  Lemma fmd_loop_spec b act : forall n i best,
    (match snd best with Some j => act j = true /\ i_bisectable mid (b_get b j) = true | None => True end) ->
    match snd (fmd_loop mid b act i n best) with
    | Some j => act j = true /\ i_bisectable mid (b_get b j) = true
    | None => snd best = None /\ forall j, (i <= j < i + n)%nat -> act j = true -> i_bisectable mid (b_get b j) = true -> dgt (i_diam (b_get b j)) (fst best) = false
    end.
  Proof.
    induction n as [|n IH]; intros i best Hb; cbn [fmd_loop].
    - destruct (snd best); auto. split; auto. intros; lia.
    - destruct (act i) eqn:Ea.
      + destruct (dgt (i_diam (b_get b i)) (fst best) && i_bisectable mid (b_get b i)) eqn:E.
        * apply andb_true_iff in E. specialize (IH (S i) (i_diam (b_get b i), Some i)). cbn [snd fst] in IH.
          specialize (IH (conj Ea (proj2 E))). destruct (snd (fmd_loop mid b act (S i) n (i_diam (b_get b i), Some i))); auto. destruct IH; discriminate.
        * specialize (IH (S i) best Hb). destruct (snd (fmd_loop mid b act (S i) n best)); auto. destruct IH as [I1 I2]. split; auto.
          intros j Hj Aj Bj. destruct (Nat.eq_dec i j) as [<-|N]; [|apply I2; auto; lia]. rewrite Bj, andb_true_r in E. auto.
      + specialize (IH (S i) best Hb). destruct (snd (fmd_loop mid b act (S i) n best)); auto. destruct IH as [I1 I2]. split; auto.
        intros j Hj Aj Bj. destruct (Nat.eq_dec i j) as [<-|N]; [congruence|]. apply I2; auto; lia.
  Qed.
  Lemma branch_largest_some b act d l r : branch_largest mid b act = Some (Some (d, l, r)) -> b_bisect mid b d = Some (l, r) /\ act d = true.
  Proof.
    unfold branch_largest, find_max_diam. pose proof (fmd_loop_spec b act (b_size b) 0 (dzero, None) I) as H.
    destruct (snd (fmd_loop mid b act 0 (b_size b) (dzero, None))) as [i|] eqn:E; [|discriminate].
    destruct (b_bisect mid b i) as [[l' r']|] eqn:Eb; [|discriminate]. intros [= <- <- <-]. tauto.
  Qed.
  Lemma branch_largest_none b act : branch_largest mid b act = Some None ->
    forall j, (j < b_size b)%nat -> act j = true -> i_bisectable mid (b_get b j) = true -> dgt (i_diam (b_get b j)) dzero = false.
  Proof.
    unfold branch_largest, find_max_diam. pose proof (fmd_loop_spec b act (b_size b) 0 (dzero, None) I) as H.
    destruct (snd (fmd_loop mid b act 0 (b_size b) (dzero, None))) as [i|] eqn:E.
    - destruct (b_bisect mid b i) as [[l' r']|]; discriminate.
    - intros _ j Hj. apply H. lia.
  Qed.
End Branch.
