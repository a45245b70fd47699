(** * Proofs about scoped containers *)
From Coq Require Import List Bool Arith Lia.
From Verif Require Import Scoped SpecScoped.
Import ListNotations.

Section Vec.
  Context {T : Type}.

  Lemma removelast_len (v : list T) : length (removelast v) = length v - 1.
  Proof.
    destruct v as [|x v]; [reflexivity|]. assert (E : x :: v <> []) by discriminate.
    pose proof (app_removelast_last x E) as A. apply (f_equal (@length T)) in A. rewrite app_length in A. cbn [length] in *. lia.
  Qed.
  Lemma removelast_firstn_len' (v : list T) : removelast v = firstn (length v - 1) v.
  Proof. rewrite removelast_firstn_len. f_equal. lia. Qed.

  Lemma pop_loop_spec : forall cur prev (v : list T) n, cur = length v -> prev <= cur ->
    sv_pop_loop cur prev v n = (firstn prev v, n + (cur - prev)).
  Proof.
    induction cur as [|cur IH]; intros prev v n E L.
    - assert (prev = 0) by lia. subst prev. destruct v; [|discriminate]. cbn. f_equal; lia.
    - cbn [sv_pop_loop]. destruct (Nat.ltb_spec prev (S cur)).
      + rewrite IH; [|rewrite removelast_len; lia|lia].
        rewrite removelast_firstn_len', firstn_firstn. f_equal; [f_equal; lia|lia].
      + assert (prev = S cur) by lia. subst prev. rewrite E, firstn_all. f_equal. lia.
  Qed.

  (** The saved sizes describe prefixes of the vector. *)
  Inductive vrel : list T -> list nat -> list (list T) -> Prop :=
  | vrel_nil v : vrel v [] []
  | vrel_cons v n st x r : n <= length v -> x = firstn n v -> vrel x st r -> vrel v (n :: st) (x :: r).

  Lemma vrel_app v x st r : vrel v st r -> vrel (v ++ x) st r.
  Proof.
    intros H. inversion H; subst; constructor; auto.
    - rewrite app_length; lia.
    - rewrite firstn_app. replace (n - length v) with 0 by lia. cbn. now rewrite app_nil_r.
  Qed.

  Definition vsim (s : svec T) (a : snap (list T)) : Prop := sv_vec s = fst a /\ vrel (sv_vec s) (sv_scopes s) (snd a).

  Lemma vstep_sim s a o : vsim s a -> let (s', t) := sv_step s o in let (a', t') := vspec_step a o in vsim s' a' /\ t = t'.
  Proof.
    intros [E R]. destruct o; cbn [sv_step vspec_step].
    - split; [|reflexivity]. split; cbn [sv_vec sv_scopes fst snd sv_push_back]; [now rewrite E|]. now apply vrel_app.
    - split; [|reflexivity]. split; cbn [sv_vec sv_scopes fst snd sv_push snap_push]; [exact E|].
      constructor; [lia|now rewrite firstn_all|]. now rewrite <- E.
    - unfold sv_pop, snap_pop. destruct s as [v sc], a as [g r]. cbn [sv_vec sv_scopes fst snd] in *. inversion R; subst.
      + split; [|reflexivity]. split; [reflexivity|]. constructor.
      + rewrite pop_loop_spec; auto. split; [|reflexivity]. split; cbn [sv_vec sv_scopes fst snd]; auto.
  Qed.

  Lemma vrun_sim ops : forall s a, vsim s a ->
    let (s', t) := sv_run s ops in let (a', t') := vspec_run a ops in vsim s' a' /\ t = t'.
  Proof.
    induction ops as [|o ops IH]; intros s a H; cbn [sv_run vspec_run]; [auto|].
    pose proof (vstep_sim s a o H) as V. destruct (sv_step s o), (vspec_step a o). destruct V as [V ->].
    specialize (IH _ _ V). destruct (sv_run s0 ops), (vspec_run s1 ops). destruct IH as [IH ->]. auto.
  Qed.

  Lemma scoped_vector_snapshots (ops : list (sv_op T)) :
    sv_vec (fst (sv_run sv_init ops)) = fst (fst (vspec_run ([], []) ops)) /\
    snd (sv_run sv_init ops) = snd (vspec_run ([], []) ops).
  Proof.
    pose proof (vrun_sim ops sv_init ([], [])) as H.
    assert (V : vsim sv_init ([], [])) by (split; [reflexivity|constructor]).
    specialize (H V). destruct (sv_run sv_init ops), (vspec_run ([], []) ops). destruct H as [[E _] ->]. auto.
  Qed.

  Lemma sv_pop_count (ops : list (sv_op T)) n s' :
    sv_pop (fst (sv_run sv_init ops)) = Ok (n, s') -> n + length (sv_vec s') = length (sv_vec (fst (sv_run sv_init ops))).
  Proof.
    intros P. pose proof (vrun_sim ops sv_init ([], [])) as H.
    assert (V : vsim sv_init ([], [])) by (split; [reflexivity|constructor]).
    specialize (H V). destruct (sv_run sv_init ops) as [s t], (vspec_run ([], []) ops) as [a t']. cbn [fst] in *.
    destruct H as [[_ R] _]. unfold sv_pop in P. destruct s as [v sc], a as [g r]. cbn [sv_vec sv_scopes fst snd] in *. inversion R; subst.
    - discriminate.
    - rewrite pop_loop_spec in P; auto. injection P as <- <-. cbn [sv_vec]. rewrite firstn_length. lia.
  Qed.
End Vec.

Section Map.
  Context {K V : Type}.
  Variable eqb : K -> K -> bool.
  Hypothesis eqb_spec : forall a b, reflect (a = b) (eqb a b).

  Notation find := (@al_find K V eqb).

  Lemma find_set k v m k' : find k m <> None -> find k' (al_set eqb k v m) = if eqb k' k then Some v else find k' m.
  Proof.
    induction m as [|[q w] m IH]; cbn [al_find al_set]; intros H; [congruence|].
    destruct (eqb_spec k q) as [->|N].
    - cbn [al_find]. destruct (eqb_spec k' q); reflexivity.
    - cbn [al_find]. destruct (eqb_spec k' q) as [->|N'].
      + destruct (eqb_spec q k); [congruence|reflexivity].
      + now apply IH.
  Qed.
  Lemma keys_set k v m : map fst (@al_set K V eqb k v m) = map fst m.
  Proof.
    induction m as [|[q w] m IH]; [reflexivity|]. cbn [al_set]. destruct (eqb k q); cbn [map fst]; [reflexivity|now rewrite IH].
  Qed.
  Lemma find_None k m : find k m = None <-> ~ In k (map fst m).
  Proof.
    induction m as [|[q w] m IH]; cbn [al_find map fst In]; [tauto|].
    destruct (eqb_spec k q) as [->|N]; [|rewrite IH; intuition congruence].
    split; [discriminate|]. intros H. exfalso. apply H. auto.
  Qed.
  Lemma find_erase k m k' : NoDup (map fst m) -> find k' (al_erase eqb k m) = if eqb k' k then None else find k' m.
  Proof.
    induction m as [|[q w] m IH]; cbn [al_find al_erase map fst]; intros D; [destruct (eqb k' k); reflexivity|].
    inversion D; subst. destruct (eqb_spec k q) as [->|N].
    - destruct (eqb_spec k' q) as [E|N']; [rewrite E; now apply find_None|reflexivity].
    - cbn [al_find]. destruct (eqb_spec k' q) as [E|N'].
      + destruct (eqb_spec k' k); [congruence|reflexivity].
      + now apply IH.
  Qed.
  Lemma keys_erase_in k m x : In x (map fst (@al_erase K V eqb k m)) -> In x (map fst m).
  Proof.
    induction m as [|[q w] m IH]; cbn [al_erase map fst]; [auto|]. destruct (eqb k q); cbn [map fst In]; intuition.
  Qed.
  Lemma keys_erase k m : NoDup (map fst m) -> NoDup (map fst (@al_erase K V eqb k m)).
  Proof.
    induction m as [|[q w] m IH]; cbn [al_erase map fst]; intros D; [constructor|]. inversion D; subst.
    destruct (eqb k q); [assumption|]. cbn [map fst]. constructor; [|auto]. intros I. apply keys_erase_in in I. contradiction.
  Qed.

  (** Undoing the newest actions one after the other goes back through the earlier contents. *)
  Definition den (m : list (K * V)) : K -> option V := fun k => find k m.
  Definition undo_den (a : action K V) (g : K -> option V) : K -> option V :=
    match a with
    | AInsert k => fun k' => if eqb k' k then None else g k'
    | AUpdate k v => fun k' => if eqb k' k then Some v else g k'
    end.
  Definition key_of (a : action K V) : K := match a with AInsert k => k | AUpdate k _ => k end.

  (** [acts] is a valid undo log for content [g], with the saved contents [saved] at log lengths [st]. *)
  Inductive mrel : (K -> option V) -> list (action K V) -> list nat -> list (K -> option V) -> Prop :=
  | mrel_nil g acts : mrel g acts [] []
  | mrel_push g acts st x r : (forall k, g k = x k) -> mrel x acts st r -> mrel g acts (length acts :: st) (x :: r)
  | mrel_act g a acts st r n x : g (key_of a) <> None -> n <= length acts ->
      mrel (undo_den a g) acts (n :: st) (x :: r) -> mrel g (a :: acts) (n :: st) (x :: r).

  Lemma mrel_ext : forall g acts st r, mrel g acts st r -> forall g', (forall k, g' k = g k) -> mrel g' acts st r.
  Proof.
    induction 1; intros g' E.
    - constructor.
    - constructor; [intros k; now rewrite E|assumption].
    - constructor; [now rewrite E|assumption|]. apply IHmrel. intros k. destruct a; cbn [undo_den]; now rewrite E.
  Qed.

  (** The loop of [pop] reaches the newest snapshot without undefined behaviour. *)
  Lemma undo_loop_spec : forall acts m n st x r, NoDup (map fst m) -> mrel (den m) acts (n :: st) (x :: r) ->
    exists acts' m', undo_loop eqb n acts m = Ok (acts', m') /\ NoDup (map fst m') /\
      (forall k, find k m' = x k) /\ mrel x acts' st r.
  Proof.
    induction acts as [|a acts IH]; intros m n st x r D R.
    - inversion R; subst. cbn [undo_loop]. exists [], m. repeat split; auto.
    - inversion R; subst.
      + cbn [undo_loop]. rewrite Nat.ltb_irrefl. exists (a :: acts), m. repeat split; auto.
      + cbn [undo_loop]. replace (Nat.ltb n (length (a :: acts))) with true
          by (symmetry; apply Nat.ltb_lt; cbn [length]; lia).
        unfold den in H5. destruct a as [k|k v]; cbn [undo key_of undo_den] in *.
        * destruct (find k m) as [w|] eqn:F; [|congruence]. apply IH; [now apply keys_erase|].
          eapply mrel_ext; [eassumption|]. intros k'. cbn. unfold den. now apply find_erase.
        * destruct (find k m) as [w|] eqn:F; [|congruence]. apply IH; [now rewrite keys_set|].
          eapply mrel_ext; [eassumption|]. intros k'. cbn. unfold den. apply find_set. congruence.
  Qed.

  Definition msim (s : smapt K V) (a : snap (K -> option V)) : Prop :=
    NoDup (map fst (sm_map s)) /\ (forall k, find k (sm_map s) = fst a k) /\
    mrel (den (sm_map s)) (sm_acts s) (sm_stack s) (snd a).

  Lemma mrel_le g acts n st r : mrel g acts (n :: st) r -> n <= length acts.
  Proof. intros R. inversion R; subst; cbn [length]; lia. Qed.

  Definition ins_ok (over : bool) (ins : K -> V -> smapt K V -> smapt K V) : Prop :=
    forall k v s a, msim s a -> msim (ins k v s) (fupd eqb over k v (fst a), snd a).

  Lemma mrel_add g a acts st r g0 : mrel g0 acts st r -> g (key_of a) <> None ->
    (forall k, undo_den a g k = g0 k) -> mrel g (a :: acts) st r.
  Proof.
    intros R N E. destruct st as [|n st].
    - inversion R; subst. constructor.
    - pose proof (mrel_le _ _ _ _ _ R). destruct r as [|x r]; [inversion R|].
      constructor; auto. eapply mrel_ext; [exact R|exact E].
  Qed.

  Lemma fresh_sim k v s a : msim s a -> find k (sm_map s) = None ->
    msim {| sm_map := (k, v) :: sm_map s; sm_acts := AInsert k :: sm_acts s; sm_stack := sm_stack s |}
         (fun k' => if eqb k' k then Some v else fst a k', snd a).
  Proof.
    intros [D [E R]] F. repeat split; cbn [sm_map sm_acts sm_stack fst snd].
    - cbn [map fst]. constructor; [|exact D]. now apply find_None.
    - intros k'. cbn [al_find]. destruct (eqb k' k); auto.
    - eapply mrel_add; [exact R| |].
      + unfold den. cbn [key_of al_find]. destruct (eqb_spec k k); congruence.
      + intros k'. cbn [undo_den]. unfold den. cbn [al_find].
        destruct (eqb_spec k' k) as [->|N]; [now rewrite F|reflexivity].
  Qed.

  Lemma sm_insert_ok : ins_ok true (sm_insert eqb).
  Proof.
    intros k v s a S. unfold sm_insert. destruct (find k (sm_map s)) as [old|] eqn:F.
    - destruct S as [D [E R]]. unfold fupd. rewrite <- E, F. repeat split; cbn [sm_map sm_acts sm_stack fst snd].
      + now rewrite keys_set.
      + intros k'. rewrite find_set by congruence. destruct (eqb k' k); auto.
      + eapply mrel_add; [exact R| |].
        * unfold den. cbn [key_of]. rewrite find_set by congruence. destruct (eqb_spec k k); congruence.
        * intros k'. cbn [undo_den]. unfold den. rewrite find_set by congruence.
          destruct (eqb_spec k' k) as [->|N]; [now rewrite F|reflexivity].
    - unfold fupd. rewrite <- (proj1 (proj2 S)), F. now apply fresh_sim.
  Qed.
  Lemma ss_insert_ok : ins_ok false (ss_insert eqb).
  Proof.
    intros k v s a S. unfold ss_insert. destruct (find k (sm_map s)) as [old|] eqn:F.
    - unfold fupd. rewrite <- (proj1 (proj2 S)), F. destruct S as [D [E R]]. repeat split; auto.
    - unfold fupd. rewrite <- (proj1 (proj2 S)), F. now apply fresh_sim.
  Qed.

  Lemma mstep_sim over ins s a o : ins_ok over ins -> msim s a ->
    exists s', sm_step eqb ins s o = Some (s', snd (mspec_step eqb over a o)) /\ msim s' (fst (mspec_step eqb over a o)).
  Proof.
    intros I S. destruct o; cbn [sm_step mspec_step fst snd].
    - eexists. split; [reflexivity|]. apply I. exact S.
    - eexists. split; [reflexivity|]. destruct S as [D [E R]]. repeat split; cbn [sm_push sm_map sm_acts sm_stack snap_push fst snd]; auto.
      constructor; [exact E|]. eapply mrel_ext; [exact R|]. intros k. symmetry. apply E.
    - destruct S as [D [E R]]. unfold sm_pop, snap_pop. destruct (sm_stack s) as [|n st] eqn:Es, (snd a) as [|x r] eqn:Ea;
        try solve [inversion R].
      + eexists. split; [reflexivity|]. repeat split; auto. rewrite Es. cbn [fst]. now rewrite Ea.
      + destruct (undo_loop_spec _ _ _ _ _ _ D R) as [acts' [m' [U [D' [E' R']]]]]. rewrite U.
        eexists. split; [reflexivity|]. repeat split; cbn [sm_map sm_acts sm_stack fst snd]; auto.
        eapply mrel_ext; [exact R'|]. exact E'.
    - eexists. split; [reflexivity|]. unfold sm_clear, sm_init. repeat split; cbn [sm_map sm_acts sm_stack fst snd].
      + constructor.
      + repeat constructor.
  Qed.

  Lemma mrun_sim over ins : ins_ok over ins -> forall ops s a, msim s a ->
    exists s', sm_run eqb ins s ops = Some (s', snd (mspec_run eqb over a ops)) /\ msim s' (fst (mspec_run eqb over a ops)).
  Proof.
    intros I. induction ops as [|o ops IH]; intros s a S; cbn [sm_run mspec_run].
    - eexists. split; [reflexivity|exact S].
    - destruct (mstep_sim over ins s a o I S) as [s1 [E1 S1]]. rewrite E1.
      destruct (mspec_step eqb over a o) as [a1 t1]. cbn [fst snd] in *.
      destruct (IH _ _ S1) as [s2 [E2 S2]]. rewrite E2. destruct (mspec_run eqb over a1 ops) as [a2 t2]. cbn [fst snd] in *. eauto.
  Qed.

  Lemma scoped_map_snapshots over ins (ops : list (sm_op K V)) : ins_ok over ins ->
    exists s, sm_run eqb ins sm_init ops = Some (s, snd (mspec_run eqb over (fun _ => None, []) ops)) /\
      NoDup (map fst (sm_map s)) /\ forall k, find k (sm_map s) = fst (fst (mspec_run eqb over (fun _ => None, []) ops)) k.
  Proof.
    intros I. destruct (mrun_sim over ins I ops sm_init (fun _ => None, [])) as [s [E [D [F _]]]].
    - repeat split; cbn; constructor.
    - exists s. auto.
  Qed.
End Map.
