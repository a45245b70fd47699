(** * Properties of the worker thread pool (C47, C49)

    [reach n cs p] (SpecPool.v): [p] is a state of a pool of [n] workers whose users enqueue the lists of
    tasks [cs], after some schedule. *)
From Coq Require Import List Bool Arith Permutation.
From Verif Require Import ThreadPool SpecPool ThreadPoolProofs ThreadId SpecTid ThreadIdProofs ExamplesPool.
Import ListNotations.

(** No schedule takes a task from an empty queue. *)
Theorem C47_no_undefined_behaviour : forall (task : Type) n (cs : list (list task)) p c, reach n cs p -> step p c <> UB.
Proof. exact (fun task n cs p c H => no_ub n cs p c H). Qed.
Print Assumptions C47_no_undefined_behaviour.
(** At any time the tasks that have run are among the accepted ones, each as often as it was accepted at most. *)
Theorem C47_at_most_once : forall (task : Type) n (cs : list (list task)) p, reach n cs p -> exists rest, Permutation (accepted p) (ran p ++ rest).
Proof. exact (fun task n cs p H => at_most_once n cs p H). Qed.
Print Assumptions C47_at_most_once.
(** When the destructor has returned every accepted task has run, exactly once. *)
Theorem C47_destructor : forall (task : Type) n (cs : list (list task)) p, 0 < n -> reach n cs p -> destr p = DDone -> Permutation (ran p) (accepted p).
Proof. exact (fun task n cs p Hn H => destroyed n cs p Hn H). Qed.
Print Assumptions C47_destructor.
(** No wake-up is lost: when no thread can go on, all calls have returned, every accepted task has run and a
    destructor that was called has returned. *)
Theorem C47_no_deadlock : forall (task : Type) n (cs : list (list task)) p, 0 < n -> reach n cs p -> at_rest p ->
  calls_over p /\ Permutation (ran p) (accepted p) /\ handled cs p /\ (destr p = DIdle \/ destr p = DDone).
Proof. exact (fun task n cs p Hn H A => rest_ok n cs p Hn H A). Qed.
Print Assumptions C47_no_deadlock.
(** Every execution is finite if wake-ups without cause are. *)
Theorem C47_termination : forall (task : Type) n (cs : list (list task)) k s p,
  execution (pool_init n cs) k s p -> k <= 7 * n + 10 + 12 * list_sum (map (@length task) cs) + 3 * s.
Proof. exact (fun task n cs k s p H => terminates n cs k s p H). Qed.
Print Assumptions C47_termination.
Example C47_not_vacuous : exists p, run sched (pool_init 2 tasks3) = Next p /\ reach 2 tasks3 p /\ destr p = DDone /\ ran p = [2; 3; 1] /\ at_rest p.
Proof. exact pool_runs. Qed.
(** A pool without workers (number of jobs 1) drops its tasks. *)
Theorem C47_no_workers_refuted : exists p, reach 0 [[1]] p /\ destr p = DDone /\ accepted p = [1] /\ ran p = [].
Proof. exact no_workers. Qed.
Print Assumptions C47_no_workers_refuted.

(** ** C49: per-thread entries *)
(** One pool alive at a time, one user thread: numbers are below the number of jobs and distinct. *)
Theorem C49_numbers_partial : forall h k n, history h -> In (k, n) (live (t_run h)) -> forall t t' m m',
  event_ok (t_run h) (Use t) -> event_ok (t_run h) (Use t') -> number (t_run h) t = Some m -> number (t_run h) t' = Some m' ->
  m < n + 1 /\ (t <> t' -> m <> m').
Proof. exact ids_ok. Qed.
Print Assumptions C49_numbers_partial.
Example C49_not_vacuous : history hist2 /\ In (1, 2) (live (t_run hist2)) /\ number (t_run hist2) (Worker 1 1) = Some 1 /\ number (t_run hist2) (Worker 1 0) = Some 2 /\
  event_ok (t_run hist2) (Use (Worker 1 1)) /\ event_ok (t_run hist2) (Use (Worker 1 0)).
Proof. exact hist2_ok. Qed.
(** Two solvers with two jobs each, alive together: an index beyond the end. *)
Theorem C49_two_pools_refuted : exists m, number (t_run [NewPool 0 1; Use (Worker 0 0); NewPool 0 1; Use (Worker 1 0)]) (Worker 1 0) = Some m /\
  In (1, 1) (live (t_run [NewPool 0 1; Use (Worker 0 0); NewPool 0 1; Use (Worker 1 0)])) /\ ~ m < 1 + 1.
Proof. exact two_pools. Qed.
Print Assumptions C49_two_pools_refuted.
(** The reset in the destructor gives two workers of one pool the same number. *)
Theorem C49_reset_refuted : let s := t_run [NewPool 0 2; Use (Worker 0 0); Use (Worker 0 1); Destroy 0; NewPool 0 2; Use (Worker 1 0); NewPool 0 2; Destroy 1; Use (Worker 2 0); NewPool 0 2; Use (Worker 3 0); Destroy 3; Use (Worker 2 1)] in
  number s (Worker 2 0) = Some 1 /\ number s (Worker 2 1) = Some 1.
Proof. exact reused. Qed.
Print Assumptions C49_reset_refuted.
(** A second user thread has number 1 although a sequential solver has one entry. *)
Theorem C49_second_thread_refuted : number (t_run [Use (User 0); Use (User 1)]) (User 1) = Some 1.
Proof. exact second_user. Qed.
Print Assumptions C49_second_thread_refuted.
