(** * Numbers given to threads

    Models ThreadPool::get_thread_id (ThreadPool.h:25-28), its use in the constructor (line 50) and the
    reset in the destructor (line 103).  The contractors and evaluators keep one entry per job and index
    them with this number: contractor_ibex_fwdbwd_mt.cc:36-37 and 47-60, contractor_ibex_polytope_mt.cc:
    39-40 and 50-63, contractor_forall.h:272-273 and 305-324, forall_formula_evaluator.cc:67-72 and 84-96. *)
From Coq Require Import List Bool Arith.
Import ListNotations.

(** A thread of the user, or a worker of the [k]-th pool created. *)
Inductive thread := User (i : nat) | Worker (k i : nat).
Definition thread_eqb (a b : thread) : bool :=
  match a, b with
  | User i, User j => i =? j
  | Worker k i, Worker l j => (k =? l) && (i =? j)
  | _, _ => false
  end.
(** next: global_thread_id_index_; given: the thread_local numbers; live: pools alive with their size;
    made: pools created so far *)
Record tstate := mkT { next : nat; given : list (thread * nat); live : list (nat * nat); made : nat }.
Definition t_init : tstate := mkT 0 [] [] 0.
Definition number (s : tstate) (t : thread) : option nat := option_map snd (find (fun p => thread_eqb (fst p) t) (given s)).
(** ThreadPool.h:25-28 *)
Definition get_thread_id (s : tstate) (t : thread) : tstate * nat :=
  match number s t with
  | Some k => (s, k)
  | None => (mkT (S (next s)) ((t, next s) :: given s) (live s) (made s), next s)
  end.
Inductive event :=
| NewPool (u n : nat)    (* user thread [u] creates a pool of [n] workers *)
| Use (t : thread)       (* thread [t] asks for its number *)
| Destroy (k : nat).     (* the [k]-th pool is destroyed *)
Definition t_step (s : tstate) (e : event) : tstate :=
  match e with
  | NewPool u n => let s' := fst (get_thread_id s (User u)) in mkT (next s') (given s') ((made s', n) :: live s') (S (made s'))
  | Use t => fst (get_thread_id s t)
  | Destroy k => mkT 1 (given s) (filter (fun p => negb (fst p =? k)) (live s)) (made s)
  end.
Definition t_run (h : list event) : tstate := fold_left t_step h t_init.
