From Coq Require Import List Bool Arith Lia Sorting.Sorted.
From Verif Require Import Syntax VarSet.
Import ListNotations.

Definition vlt (a b : var) : Prop := vid a < vid b.
Lemma have_intersection_sound : forall l1 l2, have_intersection l1 l2 = true -> exists a b, In a l1 /\ In b l2 /\ vid a = vid b.
Proof.
  induction l1 as [|a l1 IH]; intros l2; [destruct l2; discriminate|].
  induction l2 as [|b l2 IH2]; cbn [have_intersection]; [discriminate|].
  unfold v_less in *. destruct (Nat.ltb_spec (vid a) (vid b)).
  - intros E. destruct (IH _ E) as (x & y & A & B & C). exists x, y. cbn; auto.
  - destruct (Nat.ltb_spec (vid b) (vid a)); cbn [negb].
    + intros E. destruct (IH2 E) as (x & y & A & B & C). exists x, y. cbn in *; auto.
    + intros _. exists a, b. cbn. repeat split; auto. lia.
Qed.
Lemma have_intersection_complete : forall l1 l2 a b, StronglySorted vlt l1 -> StronglySorted vlt l2 -> In a l1 -> In b l2 -> vid a = vid b -> have_intersection l1 l2 = true.
Proof.
  induction l1 as [|x l1 IH]; intros l2 a b S1 S2 Ha Hb E; [destruct Ha|].
  induction l2 as [|y l2 IH2]; [destruct Hb|]. cbn [have_intersection]. unfold v_less in *.
  pose proof (StronglySorted_inv S1) as [S1' F1]. pose proof (StronglySorted_inv S2) as [S2' F2]. rewrite Forall_forall in F1, F2.
  destruct (Nat.ltb_spec (vid x) (vid y)).
  - destruct Ha as [<-|Ha]; [|apply (IH _ a b); auto].
    exfalso. destruct Hb as [<-|Hb]; [lia|]. specialize (F2 _ Hb). unfold vlt in F2. lia.
  - destruct (Nat.ltb_spec (vid y) (vid x)); cbn [negb]; auto.
    destruct Hb as [<-|Hb]; [|apply IH2; auto]. exfalso. destruct Ha as [<-|Ha]; [lia|]. specialize (F1 _ Ha). unfold vlt in F1. lia.
Qed.
Lemma vs_insert_in x y l : In y (vs_insert x l) -> y = x \/ In y l.
Proof.
  induction l as [|z l IH]; cbn [vs_insert]; [cbn; intuition|]. destruct (v_less x z); [cbn; intuition|]. destruct (v_less z x); [|auto]. cbn. intuition.
Qed.
Lemma vs_insert_sorted x l : StronglySorted vlt l -> StronglySorted vlt (vs_insert x l).
Proof.
  induction l as [|z l IH]; intros S; cbn [vs_insert]; [repeat constructor|]. pose proof (StronglySorted_inv S) as [S' F]. unfold v_less.
  destruct (Nat.ltb_spec (vid x) (vid z)).
  - constructor; auto. constructor; auto. rewrite Forall_forall in *. intros w Hw. specialize (F w Hw). unfold vlt in *. lia.
  - destruct (Nat.ltb_spec (vid z) (vid x)); auto. constructor; auto. rewrite Forall_forall in *. intros w Hw. apply vs_insert_in in Hw. destruct Hw as [->|Hw]; auto.
Qed.
Lemma vs_insert_ids x l i : In i (map vid (vs_insert x l)) <-> i = vid x \/ In i (map vid l).
Proof.
  induction l as [|z l IH]; cbn [vs_insert map]; [cbn; intuition|]. unfold v_less.
  destruct (Nat.ltb_spec (vid x) (vid z)); [cbn; intuition|]. destruct (Nat.ltb_spec (vid z) (vid x)); cbn [map In]; [rewrite IH; intuition|].
  assert (vid x = vid z) by lia. intuition.
Qed.
Lemma vs_of_spec l : StronglySorted vlt (vs_of l) /\ forall i, In i (map vid (vs_of l)) <-> In i (map vid l).
Proof.
  unfold vs_of. assert (X : forall l s, StronglySorted vlt s -> StronglySorted vlt (fold_left (fun s x => vs_insert x s) l s) /\
    forall i, In i (map vid (fold_left (fun s x => vs_insert x s) l s)) <-> In i (map vid l) \/ In i (map vid s)).
  { clear l. induction l as [|x l IH]; intros s S; cbn [fold_left map In]; [tauto|]. destruct (IH (vs_insert x s) (vs_insert_sorted x s S)) as [A B]. split; auto.
    intros i. rewrite B, vs_insert_ids. intuition. }
  destruct (X l []) as [A B]; [constructor|]. split; auto. intros i. rewrite B. cbn. tauto.
Qed.
Lemma have_intersection_spec l1 l2 : have_intersection (vs_of l1) (vs_of l2) = true <-> exists a b, In a l1 /\ In b l2 /\ vid a = vid b.
Proof.
  destruct (vs_of_spec l1) as [S1 I1], (vs_of_spec l2) as [S2 I2].
  assert (T : forall l l' : list var, (forall i, In i (map vid l) -> In i (map vid l')) -> forall a, In a l -> exists b, In b l' /\ vid b = vid a).
  { intros l l' H a Ha. destruct (proj1 (in_map_iff vid l' (vid a)) (H _ (in_map vid _ _ Ha))) as (b & B1 & B2). eauto. }
  split.
  - intros E. apply have_intersection_sound in E. destruct E as (a & b & A & B & C).
    destruct (T _ _ (fun i => proj1 (I1 i)) a A) as (a' & A1 & A2). destruct (T _ _ (fun i => proj1 (I2 i)) b B) as (b' & B1 & B2). exists a', b'. repeat split; auto. congruence.
  - intros (a & b & A & B & C).
    destruct (T _ _ (fun i => proj2 (I1 i)) a A) as (a' & A1 & A2). destruct (T _ _ (fun i => proj2 (I2 i)) b B) as (b' & B1 & B2).
    apply (have_intersection_complete _ _ a' b'); auto. congruence.
Qed.
