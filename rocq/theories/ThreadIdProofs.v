(** * With one pool at a time the numbers are distinct and below the number of jobs *)
From Coq Require Import List Bool Arith Lia.
From Verif Require Import ThreadId SpecTid.
Import ListNotations.

Lemma thread_eqb_eq a b : thread_eqb a b = true <-> a = b.
Proof.
  destruct a as [i|k i], b as [j|l j]; cbn; try (split; discriminate).
  - rewrite Nat.eqb_eq. split; [intros ->; auto|now intros [= ->]].
  - rewrite andb_true_iff, !Nat.eqb_eq. split; [now intros [-> ->]|now intros [= -> ->]].
Qed.
Lemma number_app h e : t_run (h ++ [e]) = t_step (t_run h) e.
Proof. unfold t_run. now rewrite fold_left_app. Qed.

(** The workers of pool [k] in the order they asked *)
Definition asked (k : nat) (s : tstate) : list nat := flat_map (fun p => match fst p with Worker l i => if l =? k then [i] else [] | _ => [] end) (given s).
(** Numbers given to the workers of the current pool: 1, 2, ... in the order they asked. *)
Record TInv (s : tstate) : Prop := {
  tUser : forall u k, number s (User u) = Some k -> u = 0 /\ k = 0;
  tOnce : live s = [] \/ exists k n, live s = [(k, n)] /\ k < made s /\ number s (User 0) = Some 0;
  tOld : forall k i m, number s (Worker k i) = Some m -> k < made s;
  tNext : number s (User 0) = None -> next s = 0 /\ given s = [];
  tNext0 : live s = [] -> number s (User 0) = Some 0 -> next s = 1;
  tCur : forall k n, live s = [(k, n)] ->
    NoDup (asked k s) /\ (forall i, In i (asked k s) -> i < n) /\ next s = S (length (asked k s)) /\
    (forall i m, number s (Worker k i) = Some m -> In i (asked k s) /\ 1 <= m < next s) /\
    (forall i, In i (asked k s) -> exists m, number s (Worker k i) = Some m) /\
    (forall i j m, number s (Worker k i) = Some m -> number s (Worker k j) = Some m -> i = j) }.

Lemma num_cons s t m x n l md : number (mkT n ((t, m) :: given s) l md) x = if thread_eqb t x then Some m else number s x.
Proof. unfold number. cbn. now destruct (thread_eqb t x). Qed.
Lemma num_other s n l md x : number (mkT n (given s) l md) x = number s x. Proof. reflexivity. Qed.
Lemma asked_none k s : (forall i m, number s (Worker k i) = Some m -> False) -> asked k s = [].
Proof.
  intros H. unfold asked. unfold number in H. induction (given s) as [|[t m] g IH]; auto. cbn. destruct t as [u|l i].
  - cbn. apply IH. intros i m' Hm. apply (H i m'). cbn. exact Hm.
  - cbn. destruct (l =? k) eqn:E.
    + apply Nat.eqb_eq in E. subst l. exfalso. apply (H i m). cbn. now rewrite !Nat.eqb_refl.
    + cbn. apply IH. intros j m' Hm. apply (H j m'). cbn. rewrite E. cbn. exact Hm.
Qed.

(** User thread 0 asks *)
Lemma inv_user s : TInv s -> TInv (fst (get_thread_id s (User 0))) /\ number (fst (get_thread_id s (User 0))) (User 0) = Some 0 /\
  live (fst (get_thread_id s (User 0))) = live s /\ made (fst (get_thread_id s (User 0))) = made s.
Proof.
  intros V. unfold get_thread_id. destruct (number s (User 0)) as [k|] eqn:E; cbn [fst].
  - destruct V. destruct (tUser0 0 k E) as [_ ->]. split; [constructor; auto|auto].
  - destruct V. destruct (tNext1 E) as [N G]. rewrite N. split; [|rewrite num_cons; cbn; auto].
    assert (NW : forall k i, number s (Worker k i) = None) by (intros; unfold number; now rewrite G).
    constructor; cbn [live made next given].
    + intros u k. rewrite num_cons. destruct (thread_eqb (User 0) (User u)) eqn:X; [|apply tUser0]. apply thread_eqb_eq in X. injection X as <-. intros [= <-]. auto.
    + destruct tOnce0 as [X|(k & n & X & _ & Y)]; [now left|congruence].
    + intros k i m. rewrite num_cons. cbn. apply tOld0.
    + rewrite num_cons. cbn. discriminate.
    + lia.
    + intros k n Hl. destruct tOnce0 as [X|(k' & n' & _ & _ & Y)]; congruence.
Qed.
Lemma inv_hist h : history h -> TInv (t_run h).
Proof.
  induction 1 as [|h e H IH O].
  - constructor; cbn; try discriminate; auto.
  - rewrite number_app. destruct e as [u n|t|k]; cbn [t_step event_ok] in *.
    + destruct O as [-> L]. destruct (inv_user _ IH) as ([] & N & Lv & Md). rewrite L in Lv. cbn zeta. set (s := fst (get_thread_id (t_run h) (User 0))) in *.
      assert (A : asked (made s) s = []) by (apply asked_none; intros i m Hm; apply tOld0 in Hm; lia).
      constructor; cbn [live made next given]; rewrite ?Lv; auto.
      * right. exists (made s), n. rewrite num_other. auto.
      * intros k i m. rewrite num_other. intros X. apply tOld0 in X. lia.
      * intros k n' [= <- <-]. change (asked (made s) {| next := next s; given := given s; live := [(made s, n)]; made := S (made s) |}) with (asked (made s) s). rewrite A.
        assert (NX : forall i m, number {| next := next s; given := given s; live := [(made s, n)]; made := S (made s) |} (Worker (made s) i) = Some m -> False)
          by (intros i m X; rewrite num_other in X; apply tOld0 in X; lia).
        split; [constructor|]. split; [intros i []|]. split; [cbn; now apply tNext2|]. split; [|split].
        -- intros i m X. destruct (NX i m X).
        -- intros i [].
        -- intros i j m X. destruct (NX i m X).
    + destruct t as [u|k i]; [subst u; exact (proj1 (inv_user _ IH))|]. destruct O as (n & Hin & Hi). unfold get_thread_id.
      destruct (number (t_run h) (Worker k i)) as [m|] eqn:E; [exact IH|]. cbn [fst]. set (s := t_run h) in *. destruct IH.
      destruct tOnce0 as [X|(k' & n' & L & Lt & N)]; [rewrite X in Hin; destruct Hin|]. rewrite L in Hin. destruct Hin as [[= -> ->]|[]].
      destruct (tCur0 k n L) as (D & B & Nx & F & G & J).
      assert (NI : ~ In i (asked k s)) by (intros X; destruct (G i X) as (m & Hm); congruence).
      constructor; cbn [live made next given].
      * intros u m. rewrite num_cons. cbn. apply tUser0.
      * right. exists k, n. rewrite num_cons. cbn. auto.
      * intros k1 i1 m. rewrite num_cons. destruct (thread_eqb (Worker k i) (Worker k1 i1)) eqn:X; [|apply tOld0]. apply thread_eqb_eq in X. injection X as <- <-. auto.
      * rewrite num_cons. cbn. congruence.
      * congruence.
      * rewrite L. intros k1 n1 [= <- <-].
        assert (A : asked k {| next := S (next s); given := (Worker k i, next s) :: given s; live := [(k, n)]; made := made s |} = i :: asked k s)
          by (unfold asked; cbn; now rewrite Nat.eqb_refl).
        rewrite A. split; [now constructor|]. split; [intros j [<-|Hj]; auto|]. split; [cbn; lia|]. split; [|split].
        -- intros j m. rewrite num_cons. destruct (thread_eqb (Worker k i) (Worker k j)) eqn:X.
           ++ apply thread_eqb_eq in X. injection X as <-. intros [= <-]. split; [now left|lia].
           ++ intros Hm. destruct (F j m Hm) as [Y1 Y2]. split; [now right|lia].
        -- intros j [<-|Hj]; rewrite num_cons.
           ++ rewrite (proj2 (thread_eqb_eq (Worker k i) (Worker k i)) eq_refl). eauto.
           ++ destruct (thread_eqb (Worker k i) (Worker k j)); eauto.
        -- intros a b m. rewrite !num_cons. destruct (thread_eqb (Worker k i) (Worker k a)) eqn:X1, (thread_eqb (Worker k i) (Worker k b)) eqn:X2.
           ++ apply thread_eqb_eq in X1, X2. congruence.
           ++ intros [= <-] Hm. destruct (F b _ Hm). lia.
           ++ intros Hm [= <-]. destruct (F a _ Hm). lia.
           ++ apply J.
    + destruct O as (n & Hin). set (s := t_run h) in *. destruct IH. destruct tOnce0 as [X|(k' & n' & L & Lt & N)]; [rewrite X in Hin; destruct Hin|].
      rewrite L in *. destruct Hin as [[= -> ->]|[]]. cbn [filter fst]. rewrite Nat.eqb_refl. cbn [negb].
      constructor; cbn [live made next given]; auto; try discriminate. intros X. rewrite num_other in X. congruence.
Qed.

Lemma ids_ok h k n : history h -> In (k, n) (live (t_run h)) -> forall t t' m m',
  event_ok (t_run h) (Use t) -> event_ok (t_run h) (Use t') -> number (t_run h) t = Some m -> number (t_run h) t' = Some m' ->
  m < n + 1 /\ (t <> t' -> m <> m').
Proof.
  intros H Hin t t' m m' O O' E E'. destruct (inv_hist h H). destruct tOnce0 as [X|(k' & n' & L & Lt & N)]; [rewrite X in Hin; destruct Hin|].
  rewrite L in Hin. destruct Hin as [[= -> ->]|[]]. destruct (tCur0 k n L) as (D & B & Nx & F & G & J).
  assert (Len : length (asked k (t_run h)) <= n).
  { rewrite <- (seq_length n 0). apply NoDup_incl_length; auto. intros i Hi. apply in_seq. specialize (B i Hi). lia. }
  assert (K : forall t m, event_ok (t_run h) (Use t) -> number (t_run h) t = Some m -> (t = User 0 /\ m = 0) \/ (exists i, t = Worker k i /\ 1 <= m < n + 1)).
  { intros [u|l i] q Oq Eq; cbn in Oq.
    - left. destruct (tUser0 u q Eq) as [-> ->]. auto.
    - right. destruct Oq as (n1 & Hq & _). rewrite L in Hq. destruct Hq as [[= <- <-]|[]]. destruct (F i q Eq). exists i. split; auto. lia. }
  destruct (K t m O E) as [[-> ->]|(i & -> & Hm)]; destruct (K t' m' O' E') as [[-> ->]|(i' & -> & Hm')]; split; try lia; try tauto.
  intros Nq ->. apply Nq. now rewrite (J i i' m' E E').
Qed.
(** Two pools of one worker each, both alive: the worker of the second gets number 2, and there are two
    jobs. *)
Lemma two_pools : exists m, number (t_run [NewPool 0 1; Use (Worker 0 0); NewPool 0 1; Use (Worker 1 0)]) (Worker 1 0) = Some m /\
  In (1, 1) (live (t_run [NewPool 0 1; Use (Worker 0 0); NewPool 0 1; Use (Worker 1 0)])) /\ ~ m < 1 + 1.
Proof. exists 2. cbn. repeat split; auto. lia. Qed.
(** The first pool is destroyed while the second is alive: a worker of a third gets the number of a worker
    of the second. *)
Lemma reused : let s := t_run [NewPool 0 2; Use (Worker 0 0); Use (Worker 0 1); Destroy 0; NewPool 0 2; Use (Worker 1 0); NewPool 0 2; Destroy 1; Use (Worker 2 0); NewPool 0 2; Use (Worker 3 0); Destroy 3; Use (Worker 2 1)] in
  number s (Worker 2 0) = Some 1 /\ number s (Worker 2 1) = Some 1.
Proof. cbn. auto. Qed.
(** A second thread of the user, no pool at all: its number is 1, and there is one job. *)
Lemma second_user : number (t_run [Use (User 0); Use (User 1)]) (User 1) = Some 1. Proof. reflexivity. Qed.
(** A pool of two, destroyed, then another; both of its workers have asked. *)
Definition hist2 : list event := [NewPool 0 2; Use (Worker 0 1); Destroy 0; NewPool 0 2; Use (Worker 1 1); Use (Worker 1 0)].
Example hist2_ok : history hist2 /\ In (1, 2) (live (t_run hist2)) /\ number (t_run hist2) (Worker 1 1) = Some 1 /\ number (t_run hist2) (Worker 1 0) = Some 2 /\
  event_ok (t_run hist2) (Use (Worker 1 1)) /\ event_ok (t_run hist2) (Use (Worker 1 0)).
Proof.
  split.
  - unfold hist2. change ([NewPool 0 2; Use (Worker 0 1); Destroy 0; NewPool 0 2; Use (Worker 1 1); Use (Worker 1 0)])
      with ((((((([] ++ [NewPool 0 2]) ++ [Use (Worker 0 1)]) ++ [Destroy 0]) ++ [NewPool 0 2]) ++ [Use (Worker 1 1)]) ++ [Use (Worker 1 0)])).
    repeat apply h_app; try apply h_nil; cbn; auto; exists 2; auto.
  - cbn. repeat split; auto; exists 2; auto.
Qed.
