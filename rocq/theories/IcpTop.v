(** The sequential search is sound for sound components; BranchLargestFirst is a sound brancher. *)
From Coq Require Import ZArith Reals Lra Lia List Bool.
From Flocq Require Import Core.Core IEEE754.BinarySingleNaN.
From Verif Require Import Dbl DblProofs Syntax Sem SemProofs Interval IntervalProofs MathConv MathConvProofs IEval IEvalProofs Contr ContrProofs Icp IcpProofs.
Import ListNotations.
Local Open Scope R_scope.

Lemma box_sub_refl b : box_sub b b. Proof. split; auto. Qed.
Lemma box_sub_trans a b c : box_sub a b -> box_sub b c -> box_sub a c.
Proof. intros [A B] [C E]. split; [congruence|]. auto. Qed.
Lemma int_range_sub b b' : box_sub b' b -> int_range b -> int_range b'.
Proof. intros [A B] H i v x Hi Ht Hx. rewrite A in Hi. eapply H; eauto. Qed.

Lemma branch_largest_sound mid : mid_ok mid -> brancher_sound (branch_largest mid).
Proof.
  intros Hm b act d l r K HR E. apply branch_largest_some in E. destruct E as [E _].
  destruct (bisect_spec mid Hm b d l r K E) as (v & Ev & A & B & S1 & S2 & Ho & V1 & V2 & K1 & K2).
  assert (Sb : forall b', bvars b' = bvars b -> (forall j, j <> d -> b_get b' j = b_get b j) -> strictly_smaller (b_get b' d) (b_get b d) -> box_sub b' b).
  { intros b' V O S. split; auto. intros i x Hx. destruct (Nat.eq_dec i d) as [->|N]; [apply S; auto|rewrite O in Hx; auto]. }
  split; auto. split; auto. split; [apply Sb; auto; intros; apply Ho; auto|]. split; [apply Sb; auto; intros; apply Ho; auto|].
  intros rho W HB. apply B; auto.
  destruct (b_bisect_inv _ _ _ _ _ E) as (v' & l' & u' & x & y & Ev' & Eg & Hbis & _ & _ & T). rewrite Ev in Ev'. injection Ev' as <-.
  destruct T as [[T _]|[T _]]; [left; auto|right]. intros l0 u0 E0. apply (HR d v); auto; [destruct T as [-> | ->]; reflexivity|].
  rewrite E0. pose proof (box_ok_get b d K) as Kd. rewrite E0 in Kd. destruct (Hm l0 u0 Kd) as (F & G1 & G2). cbn [imem].
  apply dle_true in G1. apply dle_true in G2. rewrite (finite_d2e _ F) in G1, G2. auto.
Qed.

Section Top.
  Variables (M : interp) (D : pdom) (pr : cstat -> option cstat) (ev : formula -> box -> option (etype * ival)).
  Variables (brancher : box -> bits -> option (option (nat * box * box))) (precision : dbl) (fs : list formula).

  Definition okb (b0 b : box) : Prop := box_ok b /\ box_sub b b0.

  Theorem icp_seq_sound n lf s r s' : box_ok (cs_box s) -> int_range (cs_box s) ->
    pruner_sound M D fs pr (bvars (cs_box s)) ->
    (forall f, In f fs -> evaluator_sound M D ev f (bvars (cs_box s))) ->
    brancher_sound brancher ->
    icp_seq pr ev brancher precision n fs lf s = Some (r, s') ->
    (r = false -> b_empty (cs_box s') = true /\ forall rho, well_typed rho -> in_box rho (cs_box s) -> ~ forall f, In f fs -> solves M D f rho) /\
    (r = true -> box_ok (cs_box s') /\ box_sub (cs_box s') (cs_box s) /\ accepted ev brancher precision fs s').
  Proof.
    intros K HR Hp He Hb E. unfold icp_seq in E.
    assert (Kp : forall t t', okb (cs_box s) (cs_box t) -> pr t = Some t' -> okb (cs_box s) (cs_box t')).
    { intros t t' [A B] Et. destruct (Hp t t' A (proj1 B) Et) as (X & Y & Z). split; auto. eapply box_sub_trans; eauto. }
    assert (Kb : forall b act d l r, okb (cs_box s) b -> brancher b act = Some (Some (d, l, r)) -> okb (cs_box s) l /\ okb (cs_box s) r).
    { intros b act d l r0 [A B] Er. destruct (Hb b act d l r0 A (int_range_sub _ _ B HR) Er) as (X1 & X2 & X3 & X4 & _).
      split; split; auto; eapply box_sub_trans; eauto. }
    assert (K0 : Forall (fun p : box * option nat => okb (cs_box s) (fst p)) [(cs_box s, None)]) by (constructor; [split; auto; apply box_sub_refl|constructor]).
    split; intros ->.
    - split; [eapply loop_false_empty; [|exact E]; discriminate|]. intros rho W HB HS.
      assert (X : ~ Exists (fun p : box * option nat => in_box rho (fst p)) [(cs_box s, None)]); [|apply X; constructor; exact HB].
      eapply (loop_good pr ev brancher precision fs (okb (cs_box s)) (in_box rho) (in_box rho) (fun _ => True)); eauto; try tauto.
      + intros t t' [A B] Gt Et _. destruct (Hp t t' A (proj1 B) Et) as (X & Y & Z). specialize (Z rho W Gt HS). split; auto. apply Z.
      + intros t f i Hf [A B] Gt Et _. apply (He f Hf (cs_box t) i rho); auto. apply (proj1 B).
      + intros b act d l r [A B] Gt Er. destruct (Hb b act d l r A (int_range_sub _ _ B HR) Er) as (_ & _ & _ & _ & X). auto.
    - destruct (loop_accept pr ev brancher precision fs (okb (cs_box s)) Kp Kb _ _ _ _ _ K0 E) as ([A B] & C & _). auto.
  Qed.

  (** What acceptance means for each constraint. *)
  Theorem accepted_spec s : accepted ev brancher precision fs s -> forall f, In f fs ->
    exists t i, ev f (cs_box s) = Some (t, i) /\ t <> UNSAT /\
      (t = VALID \/ dgt (i_diam i) precision = false \/ is_simple_relational f = true \/ is_neq_pol f true = true \/
       (exists act, brancher (cs_box s) act = Some None /\ forall j, uses (bvars (cs_box s)) f j = true -> act j = true) \/
       forall v, In v (bvars (cs_box s)) -> ~ In v (fvF f)).
  Proof.
    intros (_ & act & Ea & Hact) f Hf. destruct (eval_loop_bits ev precision fs s bits0 act Ea) as [_ X].
    destruct (X f Hf) as (t & i & Et & Nt & Hw). exists t, i. split; auto. split; auto.
    destruct t; [left; auto|congruence|right]. specialize (Hw eq_refl). unfold wide in Hw. destruct (dgt (i_diam i) precision) eqn:Ed; [right|left; auto].
    unfold no_branch in Hw. destruct (is_simple_relational f) eqn:E1; [left; auto|right]. destruct (is_neq_pol f true) eqn:E2; [left; auto|right].
    specialize (Hw eq_refl). destruct Hact as [Hn|Hn]; [right|left; eauto].
    intros v Hv Hvf. apply In_nth_error in Hv. destruct Hv as [j Hj]. assert (U : uses (bvars (cs_box s)) f j = true) by (unfold uses; rewrite Hj; apply mem_var_In; auto).
    apply Hw in U. rewrite (proj1 (bits_none_spec _ _) Hn) in U; [discriminate|]. unfold b_size. apply nth_error_Some. congruence.
  Qed.
End Top.
