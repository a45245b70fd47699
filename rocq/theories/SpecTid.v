(** * Specification: histories of pools *)
From Coq Require Import List Bool Arith.
From Verif Require Import ThreadId.
Import ListNotations.

(** [event_ok s e]: only user thread 0 and the workers of the pool alive act; a pool is created when none is
    alive; the pool destroyed is the one alive. *)
Definition event_ok (s : tstate) (e : event) : Prop :=
  match e with
  | NewPool u n => u = 0 /\ live s = []
  | Use (User u) => u = 0
  | Use (Worker k i) => exists n, In (k, n) (live s) /\ i < n
  | Destroy k => exists n, In (k, n) (live s)
  end.
Inductive history : list event -> Prop :=
| h_nil : history []
| h_app h e : history h -> event_ok (t_run h) e -> history (h ++ [e]).
