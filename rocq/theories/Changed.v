(** Which components a constraint contractor reports as changed, and when it records its constraint as used (for C54). *)
From Coq Require Import ZArith Reals Lra Lia List Bool Arith.
From Flocq Require Import Core.Core IEEE754.BinarySingleNaN.
From Verif Require Import Dbl DblProofs Syntax Sem Interval IntervalProofs IEval Contr ContrProofs SpecWork WorkProofs.
Import ListNotations.
Local Notation R := Rdefinitions.R.

Lemma ok_fin l u : i_ok (IV l u) -> ext_le (d2e l) (d2e u) /\ is_nan l = false /\ is_nan u = false /\ d2e l <> PInf /\ d2e u <> NInf.
Proof.
  intros K. pose proof (i_ok_nan _ _ K) as [N1 N2]. destruct K as (A & B & C). split; [apply dle_spec in A; tauto|]. split; [exact N1|]. split; [exact N2|].
  split; intros E; [destruct l as [|[]| |]|destruct u as [|[]| |]]; cbn in *; try discriminate.
Qed.
Lemma same_lower l u l' u' : i_ok (IV l u) -> i_ok (IV l' u') -> same_set (IV l u) (IV l' u') -> ext_le (d2e l') (d2e l).
Proof.
  intros K K' H. destruct (ok_fin _ _ K) as (A & _ & _ & B & C). destruct (ok_fin _ _ K') as (A' & _ & _ & B' & C').
  destruct (d2e l) as [|x|] eqn:El; [| |congruence].
  - destruct (d2e l') as [|y|] eqn:El'; [exact I| |congruence]. exfalso.
    destruct (d2e u) as [|z|] eqn:Eu; [congruence| |].
    + assert (G : imem (Rmin y z - 1) (IV l' u')) by (apply H; cbn [imem]; rewrite El, Eu; cbn [ext_le]; split; [exact I|]; pose proof (Rmin_r y z); lra).
      cbn [imem] in G. rewrite El' in G. cbn [ext_le] in G. pose proof (Rmin_l y z). lra.
    + assert (G : imem (y - 1) (IV l' u')) by (apply H; cbn [imem]; rewrite El, Eu; cbn; auto). cbn [imem] in G. rewrite El' in G. cbn [ext_le] in G. lra.
  - assert (G : imem x (IV l' u')) by (apply H; cbn [imem]; rewrite El; split; [cbn; lra|exact A]). destruct G as [G _]. exact G.
Qed.
Lemma same_upper l u l' u' : i_ok (IV l u) -> i_ok (IV l' u') -> same_set (IV l u) (IV l' u') -> ext_le (d2e u) (d2e u').
Proof.
  intros K K' H. destruct (ok_fin _ _ K) as (A & _ & _ & B & C). destruct (ok_fin _ _ K') as (A' & _ & _ & B' & C').
  destruct (d2e u) as [|x|] eqn:El; [congruence| |].
  - assert (G : imem x (IV l' u')) by (apply H; cbn [imem]; rewrite El; split; [exact A|cbn; lra]). destruct G as [_ G]. exact G.
  - destruct (d2e u') as [|y|] eqn:El'; [congruence| |exact I]. exfalso.
    destruct (d2e l) as [|z|] eqn:Eu; [| |congruence].
    + assert (G : imem (y + 1) (IV l' u')) by (apply H; cbn [imem]; rewrite El, Eu; cbn; auto). cbn [imem] in G. rewrite El' in G. cbn [ext_le] in G. lra.
    + assert (G : imem (Rmax y z + 1) (IV l' u')) by (apply H; cbn [imem]; rewrite El, Eu; cbn [ext_le]; split; [|exact I]; pose proof (Rmax_r y z); lra).
      cbn [imem] in G. rewrite El' in G. cbn [ext_le] in G. pose proof (Rmax_l y z). lra.
Qed.
Lemma ext_anti l l' : is_nan l = false -> is_nan l' = false -> ext_le (d2e l) (d2e l') -> ext_le (d2e l') (d2e l) -> deq l l' = true.
Proof.
  intros N N' H G. apply deq_spec; auto. destruct (d2e l), (d2e l'); cbn [ext_le] in *; try tauto. f_equal. lra.
Qed.
Lemma same_eqb i j : i_ok i -> i_ok j -> same_set i j -> i_eqb i j = true.
Proof.
  assert (NE : forall l u, i_ok (IV l u) -> exists x, imem x (IV l u)).
  { intros l u K. destruct (ok_fin _ _ K) as (A & _ & _ & B & C). cbn [imem]. destruct (d2e l) as [|x|], (d2e u) as [|y|]; cbn [ext_le] in *; try congruence.
    - exists y. split; [exact I|lra]. - exists 0%R; auto. - exists x. split; [lra|exact A]. - exists x. split; [lra|exact I]. }
  intros K K' H. destruct i as [|l u], j as [|l' u']; cbn [i_eqb]; [reflexivity| | |].
  - destruct (NE _ _ K') as [x Hx]. apply H in Hx. destruct Hx.
  - destruct (NE _ _ K) as [x Hx]. apply H in Hx. destruct Hx.
  - pose proof (same_sym _ _ H) as H'. destruct (ok_fin _ _ K) as (_ & N1 & N2 & _). destruct (ok_fin _ _ K') as (_ & N1' & N2' & _).
    apply andb_true_iff. split; apply ext_anti; auto; eauto using same_lower, same_upper.
Qed.
Lemma fold_set_in l : forall o i, fold_left bits_set l o i = true -> o i = true \/ In i l.
Proof.
  induction l as [|k l IH]; intros o i H; cbn [fold_left] in H; [auto|]. apply IH in H. destruct H as [H|H]; [|right; right; exact H].
  unfold bits_set in H. destruct (Nat.eqb k i) eqn:E; [right; left; apply Nat.eqb_eq; exact E|].
  rewrite ?E in H. try (rewrite Nat.eqb_sym in E; rewrite E in H). left. exact H.
Qed.
Section Changed.
  Variable Orc : oracles.
  Variable term : list ival -> list ival -> bool.
  Lemma changed_differs sel b b' n i : box_ok b -> box_ok b' -> In i (changed_bits sel (bvals b) (bvals b') n) -> sel i = true /\ ~ same_set (b_get b i) (b_get b' i).
  Proof.
    intros K K' H. apply filter_In in H. destruct H as [_ H]. apply andb_true_iff in H. destruct H as [H1 H2]. split; [exact H1|]. intros C.
    apply negb_true_iff in H2. assert (X : i_eqb (b_get b i) (b_get b' i) = true) by (apply same_eqb; auto using box_ok_get). unfold b_get in X. congruence.
  Qed.
  Lemma fwd_changes f s : let s' := prune_fwd Orc f s in box_ok (cs_box s) -> box_ok (cs_box s') -> b_empty (cs_box s') = false ->
    (forall i, cs_out s' i = true -> cs_out s i = true \/ (uses (bvars (cs_box s)) f i = true /\ differs s s' i)) /\
    (forall g, In g (cs_used s') -> In g (cs_used s) \/ (g = f /\ exists i, uses (bvars (cs_box s)) f i = true /\ differs s s' i)).
  Proof.
    cbv zeta. intros K. unfold prune_fwd, differs. destruct (o_bwd Orc f (cs_box s)) as [inner iv]. destruct inner; [intros _ _; split; auto|].
    destruct (b_empty (mkBox (bvars (cs_box s)) iv)) eqn:Eb; [rewrite add_used_box; cbn [cs_with_out cs_with_box cs_box]; congruence|].
    destruct (changed_bits _ _ _ _) as [|k l] eqn:Ec; [intros _ _; split; auto|].
    rewrite add_used_box, add_used_out. cbn [cs_with_out cs_with_box cs_box cs_out]. intros K' _.
    assert (P : forall i, In i (k :: l) -> uses (bvars (cs_box s)) f i = true /\ ~ same_set (b_get (cs_box s) i) (b_get (mkBox (bvars (cs_box s)) iv) i)).
    { intros i Hi. rewrite <- Ec in Hi. exact (changed_differs _ _ (mkBox (bvars (cs_box s)) iv) _ i K K' Hi). }
    split.
    - intros i Hi. apply fold_set_in in Hi. destruct Hi as [Hi|Hi]; [left; exact Hi|right; exact (P i Hi)].
    - intros g Hg. apply add_used_used in Hg. destruct Hg as [Hg|Hg]; [right|left; exact Hg]. split; [exact Hg|]. exists k. apply P. left. reflexivity.
  Qed.
  Lemma poly_changes fs s : let s' := prune_poly Orc fs s in box_ok (cs_box s) -> box_ok (cs_box s') -> b_empty (cs_box s') = false ->
    (forall i, cs_out s' i = true -> cs_out s i = true \/ differs s s' i) /\
    (forall g, In g (cs_used s') -> In g (cs_used s) \/ (In g fs /\ exists i, differs s s' i)).
  Proof.
    cbv zeta. intros K. unfold prune_poly, differs. set (iv := o_poly Orc fs (cs_box s)).
    destruct (b_empty (mkBox (bvars (cs_box s)) iv)) eqn:Eb; [rewrite (proj1 (add_used_list_same _ _)); cbn [cs_with_out cs_with_box cs_box]; congruence|].
    destruct (changed_bits _ _ _ _) as [|k l] eqn:Ec; [intros _ _; split; auto|].
    destruct (add_used_list_same fs (cs_with_out (cs_with_box s (mkBox (bvars (cs_box s)) iv)) (fold_left bits_set (k :: l) (cs_out (cs_with_box s (mkBox (bvars (cs_box s)) iv)))))) as (A1 & _ & A2).
    rewrite A1, A2. cbn [cs_with_out cs_with_box cs_box cs_out]. intros K' _.
    assert (P : forall i, In i (k :: l) -> ~ same_set (b_get (cs_box s) i) (b_get (mkBox (bvars (cs_box s)) iv) i)).
    { intros i Hi. rewrite <- Ec in Hi. exact (proj2 (changed_differs _ _ (mkBox (bvars (cs_box s)) iv) _ i K K' Hi)). }
    split.
    - intros i Hi. apply fold_set_in in Hi. destruct Hi as [Hi|Hi]; [left; exact Hi|right; exact (P i Hi)].
    - intros g Hg. apply add_used_list_used in Hg. destruct Hg as [Hg|Hg]; [right|left; exact Hg]. split; [exact Hg|]. exists k. apply P. left. reflexivity.
  Qed.
  Lemma forall_changes f s s' : prune_forall Orc f s = Some s' -> box_ok (cs_box s) -> box_ok (cs_box s') -> b_empty (cs_box s') = false ->
    forall i, cs_out s' i = true -> cs_out s i = true \/ differs s s' i.
  Proof.
    unfold prune_forall, differs. destruct (o_fa Orc f (cs_box s)) as [iv|]; cbn [bind]; [|discriminate]. destruct (b_empty (mkBox (bvars (cs_box s)) iv)) eqn:Eb; intros [= <-] K.
    - rewrite add_used_box. cbn [cs_with_out cs_with_box cs_box]. congruence.
    - rewrite add_used_box, add_used_out. cbn [cs_with_out cs_with_box cs_box cs_out]. intros K' _ i Hi.
      apply fold_set_in in Hi. destruct Hi as [Hi|Hi]; [left; exact Hi|right; exact (proj2 (changed_differs _ _ (mkBox (bvars (cs_box s)) iv) _ i K K' Hi))].
  Qed.
  Theorem only_changes n c s s' : prune Orc term n c s = Some s' -> box_ok (cs_box s) -> box_ok (cs_box s') -> b_empty (cs_box s') = false ->
    match c with
    | CFwd f =>
        (forall i, cs_out s' i = true -> cs_out s i = true \/ (reads (bvars (cs_box s)) f i /\ differs s s' i)) /\
        (forall g, In g (cs_used s') -> In g (cs_used s) \/ (g = f /\ exists i, reads (bvars (cs_box s)) f i /\ differs s s' i))
    | CPoly fs =>
        (forall i, cs_out s' i = true -> cs_out s i = true \/ differs s s' i) /\
        (forall g, In g (cs_used s') -> In g (cs_used s) \/ (In g fs /\ exists i, differs s s' i))
    | CForall f => forall i, cs_out s' i = true -> cs_out s i = true \/ differs s s' i
    | _ => True
    end.
  Proof.
    intros H K K' E. destruct n as [|n]; [discriminate|]. destruct c; try exact I; cbn [prune] in H.
    - assert (R : forall i, uses (bvars (cs_box s)) f i = true -> reads (bvars (cs_box s)) f i).
      { intros i. unfold uses, reads. destruct (nth_error (bvars (cs_box s)) i) as [v|]; [|discriminate]. intros M. exists v. split; [reflexivity|]. apply mem_var_In. exact M. }
      injection H as <-. destruct (fwd_changes f s K K' E) as [A B]. split.
      + intros i Hi. destruct (A i Hi) as [X|[X Y]]; auto.
      + intros g Hg. destruct (B g Hg) as [X|[X (i & Y & Z)]]; eauto 6.
    - injection H as <-. exact (poly_changes fs s K K' E).
    - exact (forall_changes f s s' H K K' E).
  Qed.
End Changed.
