(** * Every task runs exactly once, on every schedule *)
From Coq Require Import List Bool Arith Lia Permutation.
From Verif Require Import ThreadPool SpecPool.
Import ListNotations.

Section Lists.
  Context {A : Type}.
  Lemma upd_length i (x : A) l : length (upd i x l) = length l.
  Proof. revert i. induction l as [|y l IH]; intros [|i]; cbn; auto. Qed.
  Lemma nth_upd_same i (x y : A) l : nth_error l i = Some y -> nth_error (upd i x l) i = Some x.
  Proof. revert i. induction l as [|z l IH]; intros [|i]; cbn; try discriminate; auto. Qed.
  Lemma nth_upd_other i j (x : A) l : i <> j -> nth_error (upd i x l) j = nth_error l j.
  Proof. revert i j. induction l as [|z l IH]; intros [|i] [|j]; cbn; auto; intros H; try tauto. Qed.
  Lemma nth_upd i j (x z : A) l : nth_error (upd i x l) j = Some z -> (i = j /\ z = x) \/ (i <> j /\ nth_error l j = Some z).
  Proof.
    destruct (Nat.eq_dec i j) as [<-|N].
    - intros H. left. split; auto. assert (exists y, nth_error l i = Some y) as [y Hy].
      { destruct (nth_error l i) eqn:E; eauto. apply nth_error_None in E. rewrite <- (upd_length i x) in E. apply nth_error_None in E. congruence. }
      rewrite (nth_upd_same i x y l Hy) in H. congruence.
    - intros H. right. split; auto. now rewrite nth_upd_other in H.
  Qed.
  Lemma split_at i (y : A) l : nth_error l i = Some y -> exists a b, l = a ++ y :: b /\ forall x, upd i x l = a ++ x :: b.
  Proof.
    revert i. induction l as [|z l IH]; intros [|i]; cbn; try discriminate.
    - intros [= ->]. exists [], l. auto.
    - intros H. destruct (IH i H) as (a & b & -> & E). exists (z :: a), b. split; auto. intros x. cbn. now rewrite E.
  Qed.
  Lemma sum_upd (f : A -> nat) i x y l : nth_error l i = Some y -> list_sum (map f (upd i x l)) + f y = list_sum (map f l) + f x.
  Proof.
    intros H. destruct (split_at i y l H) as (a & b & -> & E). rewrite E, !map_app, !list_sum_app. cbn. lia.
  Qed.
  Lemma flat_upd {B} (f : A -> list B) i x y l : nth_error l i = Some y -> Permutation (flat_map f (upd i x l) ++ f y) (flat_map f l ++ f x).
  Proof.
    intros H. destruct (split_at i y l H) as (a & b & -> & E). rewrite E, !flat_map_app. cbn.
    rewrite <- !app_assoc. apply Permutation_app_head. rewrite (Permutation_app_comm (f x)). rewrite (Permutation_app_comm (f y)), <- !app_assoc.
    apply Permutation_app_head. apply Permutation_app_comm.
  Qed.
End Lists.

Section Proofs.
  Context {task : Type}.
  Notation pool := (pool task).
  Notation wpc := (wpc task).

  Definition holdsW (w : wpc) : bool := match w with WTest | WTake => true | _ => false end.
  Definition running (w : wpc) : list task := match w with WRun t => [t] | _ => [] end.
  Definition pend (c : client task) : list task := (match c_pc c with CPush t => [t] | _ => [] end) ++ c_todo c.
  Definition stopped (d : dpc) : bool := match d with DIdle | DStop => false | _ => true end.

  Record Inv (cs : list (list task)) (p : pool) : Prop := {
    iW : forall i w, nth_error (workers p) i = Some w -> (holdsW w = true <-> mutex p = Some (Wk i));
    iC : forall i c, nth_error (clients p) i = Some c -> ((exists t, c_pc c = CPush t) <-> mutex p = Some (Cl i));
    iD : destr p = DStop <-> mutex p = Some De;
    iWb : forall i, mutex p = Some (Wk i) -> i < length (workers p);
    iCb : forall i, mutex p = Some (Cl i) -> i < length (clients p);
    iTake : forall i, nth_error (workers p) i = Some WTake -> stop p = true \/ queue p <> [];
    iPerm : Permutation (accepted p) (queue p ++ flat_map running (workers p) ++ ran p);
    iStop : stop p = stopped (destr p);
    iExit : forall i, nth_error (workers p) i = Some WExit -> stop p = true /\ queue p = [];
    iJoin : forall j, destr p = DJoin j -> (forall i w, nth_error (workers p) i = Some w -> i < j -> w = WExit) /\ j <= length (workers p);
    iDone : destr p = DDone -> forall i w, nth_error (workers p) i = Some w -> w = WExit;
    iNoWait : (destr p = DDone \/ exists j, destr p = DJoin j) -> forall i, nth_error (workers p) i <> Some WWait;
    iWake : queue p <> [] -> length (workers p) = 0 \/ (exists i w, nth_error (workers p) i = Some w /\ w <> WWait) \/
              (exists i c, nth_error (clients p) i = Some c /\ c_pc c = CNotify);
    iAll : Permutation (concat cs) (flat_map pend (clients p) ++ accepted p ++ rejected p) }.

  Lemma inv_init n (cs : list (list task)) : Inv cs (pool_init n cs).
  Proof.
    assert (W : forall i w, nth_error (repeat (@WLock task) n) i = Some w -> w = WLock)
      by (intros i w H; apply nth_error_In in H; now apply repeat_spec in H).
    assert (C : forall i c, nth_error (map (mkC (@CIdle task)) cs) i = Some c -> c_pc c = CIdle).
    { intros i c H. apply nth_error_In in H. apply in_map_iff in H. destruct H as (l & <- & _). reflexivity. }
    constructor; cbn.
    - intros i w H. rewrite (W i w H). cbn. split; discriminate.
    - intros i c H. rewrite (C i c H). split; [intros (t & X)|]; discriminate.
    - split; discriminate.
    - discriminate.
    - discriminate.
    - intros i H. apply W in H. discriminate.
    - assert (E : forall k, flat_map running (repeat (@WLock task) k) = []) by (induction k; cbn; auto). rewrite E. constructor.
    - reflexivity.
    - intros i H. apply W in H. discriminate.
    - discriminate.
    - discriminate.
    - intros [X|(j & X)]; discriminate.
    - tauto.
    - clear. rewrite app_nil_r. induction cs as [|l cs IH]; cbn; auto. now apply Permutation_app_head.
  Qed.

  (** Workers whose state is changed only from waiting to locking *)
  Definition woken (l l' : list wpc) : Prop := Forall2 (fun w w' => w' = w \/ (w = WWait /\ w' = WLock)) l l'.
  Lemma woken_refl l : woken l l. Proof. induction l; constructor; auto. Qed.
  Lemma woken_first l : woken l (wake_first l).
  Proof. induction l as [|w l IH]; cbn [wake_first]; [constructor|]. destruct w; cbn [waits]; constructor; auto. apply woken_refl. Qed.
  Lemma woken_upd k l : nth_error l k = Some WWait -> woken l (upd k WLock l).
  Proof. revert k. induction l as [|w l IH]; intros [|k]; cbn; try discriminate; intros H; constructor; auto; [right; split; congruence|apply woken_refl|now apply IH]. Qed.
  Lemma woken_one k l : woken l (wake_one k l).
  Proof. unfold wake_one. destruct (nth_error l k) as [w|] eqn:E; [|apply woken_first]. destruct w; try apply woken_first. now apply woken_upd. Qed.
  Lemma woken_all l : woken l (wake_all l).
  Proof. induction l as [|w l IH]; cbn; constructor; auto. destruct w; cbn; auto. Qed.
  Lemma woken_nth l l' i w' : woken l l' -> nth_error l' i = Some w' -> exists w, nth_error l i = Some w /\ (w' = w \/ (w = WWait /\ w' = WLock)).
  Proof. intros H. revert i. induction H as [|w w'' l l' Hw H IH]; intros [|i]; cbn; try discriminate; [intros [= <-]; eauto|apply IH]. Qed.
  Lemma woken_nth' l l' i w : woken l l' -> nth_error l i = Some w -> exists w', nth_error l' i = Some w' /\ (w' = w \/ (w = WWait /\ w' = WLock)).
  Proof. intros H. revert i. induction H as [|a a' l l' Hw H IH]; intros [|i]; cbn; try discriminate; [intros [= <-]; eauto|apply IH]. Qed.
  Lemma woken_len l l' : woken l l' -> length l' = length l.
  Proof. induction 1; cbn; auto. Qed.
  Lemma woken_run l l' : woken l l' -> flat_map running l' = flat_map running l.
  Proof. induction 1 as [|w w' l l' [->|[-> ->]] H IH]; cbn; auto. now rewrite IH. Qed.
  Lemma wake_awake k (l : list wpc) i : nth_error l i = Some WWait -> exists j w, nth_error (wake_one k l) j = Some w /\ w <> WWait.
  Proof.
    assert (F : forall l : list wpc, (exists i, nth_error l i = Some WWait) -> exists j, nth_error (wake_first l) j = Some WLock).
    { clear. induction l as [|w l IH]; intros (i & H); [destruct i; discriminate|]. cbn [wake_first]. destruct (waits w) eqn:E; [now exists 0|].
      destruct i as [|i]; [cbn in H; injection H as ->; discriminate|]. destruct IH as (j & Hj); [now exists i|]. now exists (S j). }
    intros H. unfold wake_one. destruct (nth_error l k) as [w|] eqn:E.
    - destruct w; try (destruct (F l) as (j & Hj); [now exists i|]; exists j, WLock; split; [exact Hj|discriminate]).
      exists k, WLock. split; [eapply nth_upd_same; eauto|discriminate].
    - destruct (F l) as (j & Hj); [now exists i|]. exists j, WLock. split; [exact Hj|discriminate].
  Qed.

  Lemma inv_wk cs p i p' : Inv cs p -> step_wk p i = Next p' -> Inv cs p'.
  Proof.
    intros V. unfold step_wk, set_wk. destruct (nth_error (workers p) i) as [w|] eqn:Ew; [|discriminate].
    assert (Li : i < length (workers p)) by (apply nth_error_Some; congruence).
    destruct w; try discriminate.
    - destruct (mutex p) eqn:Em; [discriminate|]. intros [= <-]. destruct V. constructor; cbn.
      + intros j w H. apply nth_upd in H. destruct H as [[<- ->]|[N H]]; [cbn; tauto|]. specialize (iW0 j w H). rewrite Em in iW0. split; [intros X; apply iW0 in X; discriminate|congruence].
      + intros j c H. specialize (iC0 j c H). rewrite Em in iC0. split; [intros X; apply iC0 in X; discriminate|discriminate].
      + rewrite iD0, Em. split; discriminate.
      + intros j [= <-]. now rewrite upd_length.
      + discriminate.
      + intros j H. apply nth_upd in H. destruct H as [[_ X]|[_ H]]; [discriminate|eauto].
      + rewrite iPerm0. apply Permutation_app_head, Permutation_app_tail. pose proof (flat_upd running i WTest WLock (workers p) Ew) as X. cbn in X. now rewrite !app_nil_r in X.
      + auto.
      + intros j H. apply nth_upd in H. destruct H as [[_ X]|[_ H]]; [discriminate|eauto].
      + intros j Hj. rewrite upd_length. destruct (iJoin0 j Hj) as [X Y]. split; auto. intros i' w H L. apply nth_upd in H. destruct H as [[-> _]|[_ H]]; [|eauto].
        specialize (X i' WLock Ew L). discriminate.
      + intros Hd j w H. apply nth_upd in H. destruct H as [[<- _]|[_ H]]; [|eauto]. specialize (iDone0 Hd i WLock Ew). discriminate.
      + intros Hd j H. apply nth_upd in H. destruct H as [[_ X]|[_ H]]; [discriminate|]. exact (iNoWait0 Hd j H).
      + intros Q. right. left. exists i, WTest. split; [eapply nth_upd_same; eauto|discriminate].
      + auto.
    - assert (Em : mutex p = Some (Wk i)) by (destruct V as [VW]; apply (VW i WTest Ew); reflexivity).
      destruct (stop p || negb (match queue p with [] => true | _ => false end)) eqn:Et; intros [= <-]; destruct V; constructor; cbn.
      + intros j w H. apply nth_upd in H. destruct H as [[<- ->]|[N H]]; [cbn; tauto|]. exact (iW0 j w H).
      + exact iC0.
      + exact iD0.
      + intros j Hj. rewrite upd_length. auto.
      + auto.
      + intros j H. apply nth_upd in H. destruct H as [[_ _]|[_ H]]; [|eauto].
        apply orb_true_iff in Et. destruct Et as [Et|Et]; [now left|]. right. destruct (queue p); [discriminate|congruence].
      + rewrite iPerm0. apply Permutation_app_head, Permutation_app_tail. pose proof (flat_upd running i WTake WTest (workers p) Ew) as X. cbn in X. now rewrite !app_nil_r in X.
      + auto.
      + intros j H. apply nth_upd in H. destruct H as [[_ X]|[_ H]]; [discriminate|eauto].
      + intros j Hj. rewrite upd_length. destruct (iJoin0 j Hj) as [X Y]. split; auto. intros i' w H L. apply nth_upd in H. destruct H as [[-> _]|[_ H]]; [|eauto].
        specialize (X i' WTest Ew L). discriminate.
      + intros Hd j w H. apply nth_upd in H. destruct H as [[<- _]|[_ H]]; [|eauto]. specialize (iDone0 Hd i WTest Ew). discriminate.
      + intros Hd j H. apply nth_upd in H. destruct H as [[_ X]|[_ H]]; [discriminate|]. exact (iNoWait0 Hd j H).
      + intros Q. right. left. exists i, WTake. split; [eapply nth_upd_same; eauto|discriminate].
      + auto.
      + intros j w H. apply nth_upd in H. destruct H as [[<- ->]|[N H]]; [cbn; split; discriminate|]. split; [|discriminate]. intros X.
        apply (proj1 (iW0 j w H)) in X. rewrite Em in X. congruence.
      + intros j c H. split; [|discriminate]. intros X. apply (proj1 (iC0 j c H)) in X. congruence.
      + rewrite iD0, Em. split; discriminate.
      + discriminate.
      + discriminate.
      + intros j H. apply nth_upd in H. destruct H as [[_ X]|[_ H]]; [discriminate|eauto].
      + rewrite iPerm0. apply Permutation_app_head, Permutation_app_tail. pose proof (flat_upd running i WWait WTest (workers p) Ew) as X. cbn in X. now rewrite !app_nil_r in X.
      + auto.
      + intros j H. apply nth_upd in H. destruct H as [[_ X]|[_ H]]; [discriminate|eauto].
      + intros j Hj. rewrite upd_length. destruct (iJoin0 j Hj) as [X Y]. split; auto. intros i' w H L. apply nth_upd in H. destruct H as [[-> _]|[_ H]]; [|eauto].
        specialize (X i' WTest Ew L). discriminate.
      + intros Hd j w H. apply nth_upd in H. destruct H as [[<- _]|[_ H]]; [|eauto]. specialize (iDone0 Hd i WTest Ew). discriminate.
      + intros Hd j H. apply nth_upd in H. destruct H as [[_ X]|[_ H]]; [|exact (iNoWait0 Hd j H)].
        apply orb_false_iff in Et. destruct Et as [Et _]. rewrite iStop0 in Et. destruct Hd as [Hd|(k & Hd)]; rewrite Hd in Et; discriminate.
      + intros Q. apply orb_false_iff in Et. destruct Et as [_ Et]. destruct (queue p); [tauto|discriminate].
      + auto.
    - assert (Em : mutex p = Some (Wk i)) by (destruct V as [VW]; apply (VW i WTake Ew); reflexivity).
      assert (K : forall q w r, (forall x, w = x -> holdsW x = false) -> w <> WWait -> w <> WLock ->
        Permutation (queue p ++ flat_map running (workers p) ++ ran p) (q ++ flat_map running (upd i w (workers p)) ++ r) ->
        (q = [] -> queue p = [] \/ w <> WExit) -> (queue p = [] -> q = []) -> (w = WExit -> stop p = true /\ q = []) -> r = ran p ->
        Inv cs (mkPool None q (stop p) (upd i w (workers p)) (clients p) (destr p) (accepted p) (rejected p) r)).
      { intros q w r H1 H2 H3 H4 H5 H6 H7 ->. destruct V. constructor; cbn.
        + intros j w' H. apply nth_upd in H. destruct H as [[<- ->]|[N H]]; [rewrite (H1 w eq_refl); split; discriminate|]. split; [|discriminate]. intros X.
          apply (proj1 (iW0 j w' H)) in X. rewrite Em in X. congruence.
        + intros j c H. split; [|discriminate]. intros X. apply (proj1 (iC0 j c H)) in X. congruence.
        + rewrite iD0, Em. split; discriminate.
        + discriminate.
        + discriminate.
        + intros j H. apply nth_upd in H. destruct H as [[<- X]|[N H]]; [subst w; specialize (H1 _ eq_refl); discriminate|].
          assert (Y : mutex p = Some (Wk j)) by (apply (iW0 j WTake H); reflexivity). rewrite Em in Y. congruence.
        + now rewrite iPerm0.
        + auto.
        + intros j H. apply nth_upd in H. destruct H as [[<- X]|[N H]]; [symmetry in X; auto|]. destruct (iExit0 j H). auto.
        + intros j Hj. rewrite upd_length. destruct (iJoin0 j Hj) as [X Y]. split; auto. intros i' w' H L. apply nth_upd in H. destruct H as [[-> _]|[_ H]]; [|eauto].
          specialize (X i' WTake Ew L). discriminate.
        + intros Hd j w' H. apply nth_upd in H. destruct H as [[<- _]|[_ H]]; [|eauto]. specialize (iDone0 Hd i WTake Ew). discriminate.
        + intros Hd j H. apply nth_upd in H. destruct H as [[_ X]|[_ H]]; [congruence|]. exact (iNoWait0 Hd j H).
        + intros Q. right. left. exists i, w. split; [eapply nth_upd_same; eauto|auto].
        + auto. }
      destruct (queue p) as [|t q] eqn:Eq; [destruct (stop p) eqn:Es; [|discriminate]|]; intros [= <-].
      + apply K; auto; try discriminate; [intros x <-; reflexivity|].
        pose proof (flat_upd running i WExit WTake (workers p) Ew) as X. cbn in X. rewrite !app_nil_r in X. cbn. apply Permutation_app_tail. now symmetry.
      + apply K; auto; try discriminate; [intros x <-; reflexivity| |intros _; right; discriminate].
        pose proof (flat_upd running i (WRun t) WTake (workers p) Ew) as X. cbn in X. rewrite app_nil_r in X. rewrite X.
        rewrite <- app_assoc. cbn [app]. rewrite !app_assoc. cbn [app]. apply Permutation_middle.
    - intros [= <-]. destruct V. constructor; cbn.
      + intros j w H. apply nth_upd in H. destruct H as [[<- ->]|[N H]]; [|exact (iW0 j w H)]. cbn. split; [discriminate|]. intros X. apply (iW0 i _ Ew) in X. discriminate.
      + exact iC0.
      + exact iD0.
      + intros j Hj. rewrite upd_length. auto.
      + auto.
      + intros j H. apply nth_upd in H. destruct H as [[_ X]|[_ H]]; [discriminate|eauto].
      + rewrite iPerm0. apply Permutation_app_head. pose proof (flat_upd running i WLock (WRun t) (workers p) Ew) as X. cbn in X. rewrite app_nil_r in X. rewrite <- X.
        rewrite <- app_assoc. reflexivity.
      + auto.
      + intros j H. apply nth_upd in H. destruct H as [[_ X]|[_ H]]; [discriminate|eauto].
      + intros j Hj. rewrite upd_length. destruct (iJoin0 j Hj) as [X Y]. split; auto. intros i' w H L. apply nth_upd in H. destruct H as [[-> _]|[_ H]]; [|eauto].
        specialize (X i' _ Ew L). discriminate.
      + intros Hd j w H. apply nth_upd in H. destruct H as [[<- _]|[_ H]]; [|eauto]. specialize (iDone0 Hd i _ Ew). discriminate.
      + intros Hd j H. apply nth_upd in H. destruct H as [[_ X]|[_ H]]; [discriminate|]. exact (iNoWait0 Hd j H).
      + intros Q. right. left. exists i, WLock. split; [eapply nth_upd_same; eauto|discriminate].
      + auto.
  Qed.

  (** Replacing the workers by woken ones *)
  Lemma inv_woken cs p ws : Inv cs p -> woken (workers p) ws ->
    (queue p <> [] -> length ws = 0 \/ (exists i w, nth_error ws i = Some w /\ w <> WWait) \/ (exists i c, nth_error (clients p) i = Some c /\ c_pc c = CNotify)) ->
    Inv cs (mkPool (mutex p) (queue p) (stop p) ws (clients p) (destr p) (accepted p) (rejected p) (ran p)).
  Proof.
    intros [] W Q. pose proof (woken_len _ _ W) as L. constructor; cbn; auto.
    - intros i w' H. destruct (woken_nth _ _ _ _ W H) as (w & Hw & [->|[-> ->]]); [auto|]. specialize (iW0 i WWait Hw). exact iW0.
    - intros i H. rewrite L. auto.
    - intros i H. destruct (woken_nth _ _ _ _ W H) as (w & Hw & [<-|[_ X]]); [eauto|discriminate].
    - now rewrite (woken_run _ _ W).
    - intros i H. destruct (woken_nth _ _ _ _ W H) as (w & Hw & [<-|[_ X]]); [eauto|discriminate].
    - intros j Hj. rewrite L. destruct (iJoin0 j Hj) as [X Y]. split; auto. intros i w' H Lt. destruct (woken_nth _ _ _ _ W H) as (w & Hw & [->|[-> ->]]); [eauto|].
      specialize (X i WWait Hw Lt). discriminate.
    - intros Hd i w' H. destruct (woken_nth _ _ _ _ W H) as (w & Hw & [->|[-> ->]]); [eauto|]. specialize (iDone0 Hd i WWait Hw). discriminate.
    - intros Hd i H. destruct (woken_nth _ _ _ _ W H) as (w & Hw & [<-|[_ X]]); [|discriminate]. exact (iNoWait0 Hd i Hw).
  Qed.

  Lemma inv_cl cs p i k p' : Inv cs p -> step_cl p i k = Next p' -> Inv cs p'.
  Proof.
    intros V. unfold step_cl. destruct (nth_error (clients p) i) as [c|] eqn:Ec; [|discriminate].
    assert (Li : i < length (clients p)) by (apply nth_error_Some; congruence).
    destruct (c_pc c) as [|t|] eqn:Ep.
    - destruct (c_todo c) as [|t ts] eqn:Et; [discriminate|]. destruct (mutex p) eqn:Em; [discriminate|]. intros [= <-]. destruct V. constructor; cbn; auto.
      + intros j w H. specialize (iW0 j w H). rewrite Em in iW0. split; [intros X; apply iW0 in X; discriminate|discriminate].
      + intros j c' H. apply nth_upd in H. destruct H as [[<- ->]|[N H]]; [cbn; split; eauto|]. specialize (iC0 j c' H). rewrite Em in iC0.
        split; [intros X; apply iC0 in X; discriminate|congruence].
      + rewrite iD0, Em. split; discriminate.
      + discriminate.
      + intros j [= <-]. now rewrite upd_length.
      + intros Q. destruct (iWake0 Q) as [X|[X|(j & c' & Hj & X)]]; auto. right. right. destruct (Nat.eq_dec i j) as [<-|N]; [congruence|].
        exists j, c'. split; auto. now rewrite nth_upd_other.
      + rewrite iAll0. apply Permutation_app_tail. pose proof (flat_upd pend i (mkC (CPush t) ts) c (clients p) Ec) as X.
        assert (E : pend c = t :: ts) by (unfold pend; now rewrite Ep, Et). rewrite E in X. cbn in X. apply Permutation_app_inv_r in X. now symmetry.
    - assert (Em : mutex p = Some (Cl i)) by (destruct V as [_ VC]; apply (VC i c Ec); eauto).
      assert (A1 : forall j c', nth_error (clients p) j = Some c' -> (exists u, c_pc c' = CPush u) -> j = i).
      { intros j c' H X. destruct V as [_ VC]. apply (VC j c' H) in X. congruence. }
      destruct (stop p) eqn:Es; intros [= <-]; destruct V; constructor; cbn; auto; try congruence.
      + intros j w H. split; [|discriminate]. intros X. apply (proj1 (iW0 j w H)) in X. congruence.
      + intros j c' H. split; [|discriminate]. apply nth_upd in H. destruct H as [[<- ->]|[N H]]; [intros (u & X); discriminate|].
        intros X. specialize (A1 j c' H X). congruence.
      + rewrite iD0, Em. split; discriminate.
      + intros j H. destruct (iExit0 j H). auto.
      + intros Q. destruct (iWake0 Q) as [X|[X|(j & c' & Hj & X)]]; auto. right. right. destruct (Nat.eq_dec i j) as [<-|N]; [congruence|].
        exists j, c'. split; auto. now rewrite nth_upd_other.
      + rewrite iAll0. pose proof (flat_upd pend i (mkC CIdle (c_todo c)) c (clients p) Ec) as X.
        assert (E : pend c = t :: c_todo c) by (unfold pend; now rewrite Ep). rewrite E in X. cbn in X.
        change (pend (mkC CIdle (c_todo c))) with (c_todo c) in X. rewrite <- Permutation_middle in X. change (t :: (flat_map pend (upd i (mkC CIdle (c_todo c)) (clients p)) ++ c_todo c)) with ((t :: flat_map pend (upd i (mkC CIdle (c_todo c)) (clients p))) ++ c_todo c) in X.
        apply Permutation_app_inv_r in X. rewrite <- X. cbn. rewrite app_assoc, Permutation_middle, <- app_assoc. reflexivity.
      + intros j w H. split; [|discriminate]. intros X. apply (proj1 (iW0 j w H)) in X. congruence.
      + intros j c' H. split; [|discriminate]. apply nth_upd in H. destruct H as [[<- ->]|[N H]]; [intros (u & X); discriminate|].
        intros X. specialize (A1 j c' H X). congruence.
      + rewrite iD0, Em. split; discriminate.
      + intros j H. assert (X : mutex p = Some (Wk j)) by (apply (iW0 j WTake H); reflexivity). congruence.
      + rewrite iPerm0. rewrite <- app_assoc. cbn. rewrite Permutation_middle. reflexivity.
      + intros j H. destruct (iExit0 j H). congruence.
      + intros Q. right. right. exists i, (mkC CNotify (c_todo c)). split; [eapply nth_upd_same; eauto|reflexivity].
      + rewrite iAll0. pose proof (flat_upd pend i (mkC CNotify (c_todo c)) c (clients p) Ec) as X.
        assert (E : pend c = t :: c_todo c) by (unfold pend; now rewrite Ep). rewrite E in X. cbn in X.
        change (pend (mkC CNotify (c_todo c))) with (c_todo c) in X. rewrite <- Permutation_middle in X. change (t :: (flat_map pend (upd i (mkC CNotify (c_todo c)) (clients p)) ++ c_todo c)) with ((t :: flat_map pend (upd i (mkC CNotify (c_todo c)) (clients p))) ++ c_todo c) in X.
        apply Permutation_app_inv_r in X. rewrite <- X. cbn. rewrite Permutation_middle. reflexivity.
    - intros [= <-].
      assert (V1 : Inv cs (mkPool (mutex p) (queue p) (stop p) (wake_one k (workers p)) (clients p) (destr p) (accepted p) (rejected p) (ran p))).
      { apply inv_woken; [exact V|apply woken_one|]. intros Q. right. right. exists i, c. auto. }
      assert (Q0 : queue p <> [] -> length (wake_one k (workers p)) = 0 \/ exists j w, nth_error (wake_one k (workers p)) j = Some w /\ w <> WWait).
      { intros Q. destruct (workers p) as [|w0 ws] eqn:Ews; [left; now rewrite (woken_len _ _ (woken_one k []))|]. right. rewrite <- Ews.
        assert (D : w0 = WWait \/ w0 <> WWait) by (destruct w0; auto; right; discriminate). destruct D as [->|D].
        - apply (wake_awake k (workers p) 0). now rewrite Ews.
        - destruct (woken_nth' _ _ 0 w0 (woken_one k (workers p))) as (w' & Hw & [->|[X _]]); [now rewrite Ews| |congruence]. eauto. }
      destruct V1. constructor; cbn in *; auto.
      + intros j c' H. apply nth_upd in H. destruct H as [[<- ->]|[N H]]; [|auto]. cbn. split; [intros (u & X); discriminate|].
        intros X. apply (iC0 i c Ec) in X. destruct X. congruence.
      + intros j H. rewrite upd_length. auto.
      + intros Q. destruct (Q0 Q); auto.
      + rewrite iAll0. apply Permutation_app_tail. pose proof (flat_upd pend i (mkC CIdle (c_todo c)) c (clients p) Ec) as X.
        assert (E : pend c = c_todo c) by (unfold pend; now rewrite Ep). rewrite E in X. cbn in X. apply Permutation_app_inv_r in X. now symmetry.
  Qed.

  Lemma inv_de cs p p' : Inv cs p -> step_de p = Next p' -> Inv cs p'.
  Proof.
    intros V. unfold step_de. destruct (destr p) as [| | |j|] eqn:Ed; [| | | |discriminate].
    - destruct (mutex p) eqn:Em; [discriminate|]. intros [= <-]. destruct V. constructor; cbn; auto.
      + intros j w H. specialize (iW0 j w H). rewrite Em in iW0. split; [intros X; apply iW0 in X; discriminate|discriminate].
      + intros j c H. specialize (iC0 j c H). rewrite Em in iC0. split; [intros X; apply iC0 in X; discriminate|discriminate].
      + tauto.
      + discriminate.
      + discriminate.
      + now rewrite iStop0, Ed.
      + discriminate.
      + discriminate.
      + intros [X|(j & X)]; discriminate.
    - intros [= <-]. destruct V. assert (Em : mutex p = Some De) by tauto. constructor; cbn; auto.
      + intros j w H. split; [|discriminate]. intros X. apply (proj1 (iW0 j w H)) in X. congruence.
      + intros j c H. split; [|discriminate]. intros X. apply (proj1 (iC0 j c H)) in X. congruence.
      + split; discriminate.
      + discriminate.
      + discriminate.
      + intros j H. destruct (iExit0 j H). auto.
      + discriminate.
      + discriminate.
      + intros [X|(j & X)]; discriminate.
    - intros [= <-]. assert (W := woken_all (workers p)). pose proof (woken_len _ _ W) as L.
      assert (N : forall i, nth_error (wake_all (workers p)) i <> Some WWait).
      { intros i H. unfold wake_all in H. rewrite nth_error_map in H. destruct (nth_error (workers p) i) as [w|]; [|discriminate]. destruct w; discriminate. }
      assert (V1 : Inv cs (mkPool (mutex p) (queue p) (stop p) (wake_all (workers p)) (clients p) (destr p) (accepted p) (rejected p) (ran p))).
      { apply inv_woken; [exact V|exact W|]. intros Q. destruct (wake_all (workers p)) as [|w ws] eqn:Ew; [now left|]. right. left. exists 0, w. split; auto.
        intros ->. apply (N 0). reflexivity. }
      destruct V1. cbn in *. constructor; cbn; auto.
      + rewrite <- iD0, Ed. split; discriminate.
      + now rewrite iStop0, Ed.
      + intros j [= <-]. split; [intros; lia|lia].
      + discriminate.
    - destruct (nth_error (workers p) j) as [w|] eqn:Ew.
      + destruct w; try discriminate. intros [= <-]. destruct V. constructor; cbn; auto.
        * rewrite <- iD0, Ed. split; discriminate.
        * now rewrite iStop0, Ed.
        * intros k [= <-]. destruct (iJoin0 j Ed) as [X Y]. split; [|assert (j < length (workers p)) by (apply nth_error_Some; congruence); lia].
          intros i w H L. destruct (Nat.eq_dec i j) as [->|N]; [congruence|]. apply (X i w H). lia.
        * discriminate.
        * intros _. apply iNoWait0. eauto.
      + intros [= <-]. destruct V. constructor; cbn; auto.
        * rewrite <- iD0, Ed. split; discriminate.
        * now rewrite iStop0, Ed.
        * discriminate.
        * intros _ i w H. destruct (iJoin0 j Ed) as [X Y]. apply (X i w H). apply nth_error_None in Ew. assert (i < length (workers p)) by (apply nth_error_Some; congruence). lia.
        * intros _. apply iNoWait0. eauto.
  Qed.

  Lemma inv_step cs p c p' : Inv cs p -> step p c = Next p' -> Inv cs p'.
  Proof.
    intros V. destruct c as [[i|i|] k|i]; cbn [step]; [now apply inv_wk|now apply inv_cl|now apply inv_de|].
    destruct (nth_error (workers p) i) as [w|] eqn:Ew; [|discriminate]. destruct w; try discriminate. intros [= <-].
    apply inv_woken; auto; [now apply woken_upd|]. intros _. right. left. exists i, WLock. split; [eapply nth_upd_same; eauto|discriminate].
  Qed.
  Lemma inv_reach n (cs : list (list task)) (p : pool) : reach n cs p -> Inv cs p.
  Proof. induction 1; [apply inv_init|]. eapply inv_step; eauto. Qed.
  Lemma reach_len n (cs : list (list task)) (p : pool) : reach n cs p -> length (workers p) = n.
  Proof.
    induction 1 as [|p c p' H IH E]; [apply repeat_length|]. rewrite <- IH. clear IH H.
    destruct c as [[i|i|] k|i]; cbn [step] in E.
    - unfold step_wk, set_wk in E. destruct (nth_error (workers p) i) as [w|]; [|discriminate]. destruct w; try discriminate;
        repeat match type of E with context [match ?x with _ => _ end] => destruct x end; try discriminate; injection E as <-; apply upd_length.
    - unfold step_cl in E. destruct (nth_error (clients p) i) as [c|]; [|discriminate]. destruct (c_pc c).
      + destruct (c_todo c), (mutex p); try discriminate; injection E as <-; reflexivity.
      + destruct (stop p); injection E as <-; reflexivity.
      + injection E as <-. cbn. exact (woken_len _ _ (woken_one k _)).
    - unfold step_de in E. destruct (destr p) as [| | |j|]; [destruct (mutex p); [discriminate|]| | |destruct (nth_error (workers p) j) as [w|]; [destruct w; try discriminate|]|discriminate]; injection E as <-; try reflexivity.
      exact (woken_len _ _ (woken_all _)).
    - unfold set_wk in E. destruct (nth_error (workers p) i) as [w|]; [|discriminate]. destruct w; try discriminate. injection E as <-. apply upd_length.
  Qed.

  (** ** Safety *)
  Lemma no_ub n (cs : list (list task)) (p : pool) c : reach n cs p -> step p c <> UB.
  Proof.
    intros R. apply inv_reach in R. destruct c as [[i|i|] k|i]; cbn [step].
    - unfold step_wk, set_wk. destruct (nth_error (workers p) i) as [w|] eqn:Ew; [|discriminate]. destruct w; try discriminate.
      + destruct (mutex p); discriminate.
      + match goal with |- context [if ?b then _ else _] => destruct b end; discriminate.
      + destruct (queue p) eqn:Eq; [|discriminate]. destruct (stop p) eqn:Es; [discriminate|]. destruct R. destruct (iTake0 i Ew); congruence.
    - unfold step_cl. destruct (nth_error (clients p) i) as [c|]; [|discriminate]. destruct (c_pc c).
      + destruct (c_todo c), (mutex p); discriminate.
      + destruct (stop p); discriminate.
      + discriminate.
    - unfold step_de. destruct (destr p) as [| | |j|]; try discriminate; [destruct (mutex p); discriminate|].
      destruct (nth_error (workers p) j) as [w|]; [destruct w|]; discriminate.
    - unfold set_wk. destruct (nth_error (workers p) i) as [w|]; [|discriminate]. destruct w; discriminate.
  Qed.
  Lemma at_most_once n (cs : list (list task)) (p : pool) : reach n cs p -> exists rest, Permutation (accepted p) (ran p ++ rest).
  Proof.
    intros R. destruct (inv_reach n cs p R). exists (queue p ++ flat_map running (workers p)).
    rewrite iPerm0. rewrite app_assoc. apply Permutation_app_comm.
  Qed.
  Lemma exit_run (ws : list wpc) : (forall i w, nth_error ws i = Some w -> w = WExit \/ w = WWait) -> flat_map running ws = [].
  Proof.
    induction ws as [|w ws IH]; intros H; auto. cbn. destruct (H 0 w eq_refl) as [->| ->]; cbn; apply IH; intros i w' H'; exact (H (S i) w' H').
  Qed.
  Lemma destroyed n (cs : list (list task)) (p : pool) : 0 < n -> reach n cs p -> destr p = DDone -> Permutation (ran p) (accepted p).
  Proof.
    intros Hn R Hd. pose proof (reach_len n cs p R) as L. destruct (inv_reach n cs p R). specialize (iDone0 Hd).
    destruct (workers p) as [|w ws] eqn:Ew; [cbn in L; lia|]. assert (w = WExit) as -> by exact (iDone0 0 w eq_refl).
    destruct (iExit0 0 eq_refl) as [_ Q]. rewrite iPerm0, Q, exit_run; [reflexivity|]. intros i w' H. left. eauto.
  Qed.

  (** ** Progress *)
  Lemma free_mutex n (cs : list (list task)) (p : pool) : reach n cs p -> at_rest p -> mutex p = None.
  Proof.
    intros R A. apply inv_reach in R. destruct (mutex p) as [[i|i|]|] eqn:Em; auto; exfalso; destruct R.
    - destruct (nth_error (workers p) i) as [w|] eqn:Ew; [|apply nth_error_None in Ew; specialize (iWb0 i Em); lia].
      apply (proj2 (iW0 i w Ew)) in Em. destruct (A (Wk i) 0) as [H|[H _]]; [|discriminate]. cbn [step] in H. unfold step_wk in H. rewrite Ew in H. destruct w; try discriminate.
      + match type of H with context [if ?b then _ else _] => destruct b end; discriminate.
      + destruct (queue p); [destruct (stop p)|]; discriminate.
    - destruct (nth_error (clients p) i) as [c|] eqn:Ec; [|apply nth_error_None in Ec; specialize (iCb0 i Em); lia].
      apply (proj2 (iC0 i c Ec)) in Em. destruct Em as (t & Et). destruct (A (Cl i) 0) as [H|[H _]]; [|discriminate]. cbn [step] in H. unfold step_cl in H. rewrite Ec, Et in H. destruct (stop p); discriminate.
    - apply iD0 in Em. destruct (A De 0) as [H|[_ H]]; [|congruence]. cbn [step] in H. unfold step_de in H. rewrite Em in H. discriminate.
  Qed.
  Lemma rest_ok n (cs : list (list task)) (p : pool) : 0 < n -> reach n cs p -> at_rest p ->
    calls_over p /\ Permutation (ran p) (accepted p) /\ handled cs p /\ (destr p = DIdle \/ destr p = DDone).
  Proof.
    intros Hn R A. pose proof (free_mutex n cs p R A) as Em. pose proof (reach_len n cs p R) as L. pose proof (inv_reach n cs p R) as V.
    assert (W : forall i w, nth_error (workers p) i = Some w -> w = WExit \/ w = WWait).
    { intros i w Ew. destruct (A (Wk i) 0) as [H|[H _]]; [|discriminate]. cbn [step] in H. unfold step_wk in H. rewrite Ew in H. destruct w; auto; try discriminate.
      - rewrite Em in H. discriminate.
      - destruct V. assert (X : mutex p = Some (Wk i)) by (apply (iW0 i _ Ew); reflexivity). congruence.
      - destruct V. assert (X : mutex p = Some (Wk i)) by (apply (iW0 i _ Ew); reflexivity). congruence. }
    assert (C : forall i c, nth_error (clients p) i = Some c -> c_pc c = CIdle /\ c_todo c = []).
    { intros i c Ec. destruct (A (Cl i) 0) as [H|[H _]]; [|discriminate]. cbn [step] in H. unfold step_cl in H. rewrite Ec in H.
      destruct (c_pc c) as [|t|] eqn:Ep; [| destruct (stop p); discriminate | discriminate]. destruct (c_todo c); auto. rewrite Em in H. discriminate. }
    assert (CO : calls_over p).
    { apply Forall_forall. intros c Hc. apply In_nth_error in Hc. destruct Hc as (i & Hi). eauto. }
    destruct V.
    assert (Q : queue p = []).
    { destruct (queue p) as [|t q] eqn:Eq; auto. exfalso. destruct iWake0 as [X|[(i & w & Hw & X)|(i & c & Hc & X)]]; [congruence|lia| |].
      - destruct (W i w Hw) as [->| ->]; [|congruence]. destruct (iExit0 i Hw). discriminate.
      - destruct (C i c Hc). congruence. }
    split; [exact CO|]. split; [rewrite iPerm0, Q, exit_run; [reflexivity|exact W]|]. split.
    - unfold handled. rewrite iAll0. assert (E : flat_map pend (clients p) = []); [|rewrite E; reflexivity].
      clear - CO. unfold calls_over in CO. induction CO as [|c cl [H1 H2] H IH]; auto. cbn. unfold pend at 1. rewrite H1, H2, IH. reflexivity.
    - destruct (A De 0) as [H|[_ H]]; [|auto]. cbn [step] in H. unfold step_de in H. destruct (destr p) as [| | |j|] eqn:Ed; auto; try discriminate. exfalso.
      destruct (nth_error (workers p) j) as [w|] eqn:Ew; [|discriminate]. destruct (W j w Ew) as [->| ->]; [discriminate|]. apply (iNoWait0 (or_intror (ex_intro _ j eq_refl)) j Ew).
  Qed.

  (** ** Termination *)
  Definition mw (w : wpc) : nat := match w with WLock => 3 | WTest => 2 | WTake => 1 | WWait => 0 | WRun _ => 4 | WExit => 0 end.
  Definition mc (c : client task) : nat := (match c_pc c with CIdle => 0 | CPush _ => 11 | CNotify => 4 end) + 12 * length (c_todo c).
  Definition md (n : nat) (d : dpc) : nat := match d with DIdle => 4 * n + 10 | DStop => 4 * n + 9 | DNotify => 4 * n + 8 | DJoin i => n - i + 1 | DDone => 0 end.
  Definition measure (p : pool) : nat :=
    5 * length (queue p) + list_sum (map mw (workers p)) + list_sum (map mc (clients p)) + md (length (workers p)) (destr p).
  Lemma ls_cons a l : list_sum (a :: l) = a + list_sum l. Proof. reflexivity. Qed.
  Lemma mw_first l : list_sum (map mw (wake_first l)) <= list_sum (map mw l) + 3.
  Proof. induction l as [|w l IH]; cbn [wake_first]; [cbn; lia|]. destruct w; cbn [waits map mw]; rewrite !ls_cons; lia. Qed.
  Lemma mw_one k l : list_sum (map mw (wake_one k l)) <= list_sum (map mw l) + 3.
  Proof.
    unfold wake_one. destruct (nth_error l k) as [w|] eqn:E; [|apply mw_first]. destruct w; try apply mw_first.
    pose proof (sum_upd mw k WLock WWait l E). cbn in H. lia.
  Qed.
  Lemma mw_all l : list_sum (map mw (wake_all l)) <= list_sum (map mw l) + 3 * length l.
  Proof. unfold wake_all. induction l as [|w l IH]; [cbn; lia|]. cbn [map length]. rewrite !ls_cons. destruct w; cbn [waits mw]; lia. Qed.
  Lemma measure_go p w x p' : step p (Go w x) = Next p' -> measure p' < measure p.
  Proof.
    destruct w as [i|i|]; cbn [step].
    - unfold step_wk, set_wk, measure. destruct (nth_error (workers p) i) as [w|] eqn:Ew; [|discriminate].
      destruct w; try discriminate; intros E; repeat match type of E with context [match ?x with _ => _ end] => destruct x eqn:?; try discriminate end;
      injection E as <-; cbn [queue workers clients destr]; rewrite upd_length;
      match goal with |- context [upd i ?w' _] => pose proof (sum_upd mw i w' _ _ Ew) as X end; cbn [mw length] in *; lia.
    - unfold step_cl, measure. destruct (nth_error (clients p) i) as [c|] eqn:Ec; [|discriminate].
      destruct (c_pc c) as [|t|] eqn:Ep.
      + destruct (c_todo c) as [|t ts] eqn:Et; [discriminate|]. destruct (mutex p); [discriminate|]. intros [= <-]. cbn [queue workers clients destr].
        pose proof (sum_upd mc i (mkC (CPush t) ts) c _ Ec) as X. assert (E : mc c = 12 * S (length ts)) by (unfold mc; rewrite Ep, Et; cbn; lia).
        rewrite E in X. unfold mc in X at 3. cbn [c_pc c_todo] in X. lia.
      + assert (E : mc c = 11 + 12 * length (c_todo c)) by (unfold mc; rewrite Ep; lia).
        destruct (stop p); intros [= <-]; cbn [queue workers clients destr].
        * pose proof (sum_upd mc i (mkC CIdle (c_todo c)) c _ Ec) as X. rewrite E in X. unfold mc in X at 3. cbn [c_pc c_todo] in X. lia.
        * pose proof (sum_upd mc i (mkC CNotify (c_todo c)) c _ Ec) as X. rewrite E in X. unfold mc in X at 3. cbn [c_pc c_todo] in X. rewrite app_length. cbn [length]. lia.
      + intros [= <-]. cbn [queue workers clients destr]. rewrite (woken_len _ _ (woken_one x (workers p))). pose proof (mw_one x (workers p)).
        pose proof (sum_upd mc i (mkC CIdle (c_todo c)) c _ Ec) as X. assert (E : mc c = 4 + 12 * length (c_todo c)) by (unfold mc; rewrite Ep; lia).
        rewrite E in X. unfold mc in X at 3. cbn [c_pc c_todo] in X. lia.
    - unfold step_de, measure. destruct (destr p) as [| | |j|] eqn:Ed; [| | | |discriminate].
      + destruct (mutex p); [discriminate|]. intros [= <-]. cbn [queue workers clients destr md]. lia.
      + intros [= <-]. cbn [queue workers clients destr md]. lia.
      + intros [= <-]. cbn [queue workers clients destr md]. rewrite (woken_len _ _ (woken_all (workers p))). pose proof (mw_all (workers p)). lia.
      + destruct (nth_error (workers p) j) as [w|] eqn:Ew.
        * destruct w; try discriminate. intros [= <-]. cbn [queue workers clients destr md]. assert (j < length (workers p)) by (apply nth_error_Some; congruence). lia.
        * intros [= <-]. cbn [queue workers clients destr md]. lia.
  Qed.
  Lemma measure_sp p i p' : step p (Spurious i) = Next p' -> measure p' = measure p + 3.
  Proof.
    cbn [step]. unfold set_wk, measure. destruct (nth_error (workers p) i) as [w|] eqn:Ew; [|discriminate]. destruct w; try discriminate. intros [= <-].
    cbn [queue workers clients destr]. rewrite upd_length. pose proof (sum_upd mw i WLock _ _ Ew) as X. cbn [mw] in X. lia.
  Qed.
  Lemma bounded p k s p' : execution p k s p' -> k + measure p' <= measure p + 3 * s.
  Proof.
    induction 1 as [p|p k s p1 w x p2 H IH E|p k s p1 i p2 H IH E]; [lia| |].
    - apply measure_go in E. lia.
    - apply measure_sp in E. lia.
  Qed.
  Lemma measure_init n (cs : list (list task)) : measure (pool_init n cs) = 7 * n + 10 + 12 * list_sum (map (@length task) cs).
  Proof.
    unfold measure, pool_init. cbn [queue workers clients destr md]. rewrite repeat_length.
    assert (E1 : list_sum (map mw (repeat WLock n)) = 3 * n) by (clear; induction n as [|n IH]; [reflexivity|]; cbn [repeat map mw]; rewrite ls_cons; lia).
    assert (E2 : list_sum (map mc (map (mkC CIdle) cs)) = 12 * list_sum (map (@length task) cs)) by (clear; induction cs as [|l cs IH]; [reflexivity|]; cbn [map]; rewrite !ls_cons; unfold mc at 1; cbn [c_pc c_todo]; lia).
    rewrite E1, E2. cbn [length]. lia.
  Qed.
  Lemma terminates n (cs : list (list task)) k s (p : pool) : execution (pool_init n cs) k s p -> k <= 7 * n + 10 + 12 * list_sum (map (@length task) cs) + 3 * s.
  Proof. intros H. apply bounded in H. rewrite measure_init in H. lia. Qed.
End Proofs.
