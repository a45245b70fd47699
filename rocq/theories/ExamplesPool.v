(** A pool of two workers, two enqueuing threads, three tasks. *)
From Coq Require Import List Bool Arith Lia Permutation.
From Verif Require Import ThreadPool SpecPool ThreadPoolProofs.
Import ListNotations.

Lemma reach_run {task} n (cs : list (list task)) sched p p' : reach n cs p -> run sched p = Next p' -> reach n cs p'.
Proof.
  revert p. induction sched as [|c sched IH]; intros p R E; cbn [run] in E; [injection E as <-; exact R|].
  destruct (step p c) as [q| |] eqn:S; [|eauto|discriminate]. apply (IH q); auto. eapply reachS; eauto.
Qed.
Definition go_w i := Go (Wk i) 0.
Definition go_c i := Go (Cl i) 0.
Definition go_d := Go De 0.
(** Both workers wait; three tasks are enqueued; the destructor runs while two are still queued. *)
Definition sched : list choice :=
  [go_w 0; go_w 0; go_w 1; go_w 1; go_c 0; go_c 0; go_c 0; go_c 1; go_c 1; go_c 0; go_c 0; go_c 1; go_c 0;
   go_w 0; go_w 0; go_w 0; go_d; go_d; go_d; go_d;
   go_w 0; go_w 0; go_w 0; go_w 0; go_w 1; go_w 1; go_w 1; go_w 0; go_w 1; go_w 1; go_w 1; go_w 1; go_w 0; go_w 0; go_w 0; go_d; go_d; go_d].
Definition tasks3 : list (list nat) := [[1; 2]; [3]].
Example pool_runs : exists p, run sched (pool_init 2 tasks3) = Next p /\ reach 2 tasks3 p /\ destr p = DDone /\ ran p = [2; 3; 1] /\ at_rest p.
Proof.
  eexists. split; [vm_compute; reflexivity|]. split; [apply (reach_run 2 tasks3 sched (pool_init 2 tasks3)); [apply reach0|vm_compute; reflexivity]|].
  split; [reflexivity|]. split; [reflexivity|]. intros w x. destruct w as [[|[|i]]|[|[|i]]|]; try (left; reflexivity); left; cbn; now destruct i.
Qed.
(** No worker: the destructor returns with the task still in the queue. *)
Definition sched0 : list choice := [go_c 0; go_c 0; go_c 0; go_d; go_d; go_d; go_d].
Lemma no_workers : exists p, reach 0 [[1]] p /\ destr p = DDone /\ accepted p = [1] /\ ran p = [].
Proof.
  eexists. split; [apply (reach_run 0 [[1]] sched0 (pool_init 0 [[1]])); [apply reach0|vm_compute; reflexivity]|]. auto.
Qed.
