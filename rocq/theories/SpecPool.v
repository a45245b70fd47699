(** * Specification: executions of the thread pool *)
From Coq Require Import List Arith Permutation.
From Verif Require Import ThreadPool.
Import ListNotations.

Section Spec.
  Context {task : Type}.
  (** States reached from a pool of [n] workers used by threads that enqueue the lists [cs]. *)
  Inductive reach (n : nat) (cs : list (list task)) : pool task -> Prop :=
  | reach0 : reach n cs (pool_init n cs)
  | reachS p c p' : reach n cs p -> step p c = Next p' -> reach n cs p'.
  (** [execution p k s p']: from [p] to [p'] by [k] transitions of threads and [s] wake-ups without cause. *)
  Inductive execution : pool task -> nat -> nat -> pool task -> Prop :=
  | ex0 p : execution p 0 0 p
  | exGo p k s p1 w x p2 : execution p k s p1 -> step p1 (Go w x) = Next p2 -> execution p (S k) s p2
  | exSpurious p k s p1 i p2 : execution p k s p1 -> step p1 (Spurious i) = Next p2 -> execution p k (S s) p2.
  (** No thread can make a transition, except that the destructor may still be called. *)
  Definition at_rest (p : pool task) : Prop :=
    forall w x, step p (Go w x) = Blocked \/ (w = De /\ destr p = DIdle).
  (** Every call of enqueue has returned. *)
  Definition calls_over (p : pool task) : Prop := Forall (fun c => c_pc c = CIdle /\ c_todo c = []) (clients p).
  (** Every task given to enqueue was put in the queue or refused, once. *)
  Definition handled (cs : list (list task)) (p : pool task) : Prop := Permutation (concat cs) (accepted p ++ rejected p).
End Spec.
