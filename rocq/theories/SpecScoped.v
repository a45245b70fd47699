(** * Specification of scoped containers: a current value and a stack of snapshots *)
From Coq Require Import List Bool.
From Verif Require Import Scoped.
Import ListNotations.

Definition snap (X : Type) : Type := (X * list X)%type.   (* current content, saved contents (latest first) *)
Definition snap_push {X} (s : snap X) : snap X := (fst s, fst s :: snd s).
Definition snap_pop {X} (s : snap X) : snap X * bool :=
  match snd s with [] => (s, true) | x :: r => ((x, r), false) end.

(** Vectors: contents are lists. *)
Definition vspec_step {T} (s : snap (list T)) (o : sv_op T) : snap (list T) * bool :=
  match o with
  | VPushBack x => ((fst s ++ [x], snd s), false)
  | VPush => (snap_push s, false)
  | VPop => snap_pop s
  end.
Fixpoint vspec_run {T} (s : snap (list T)) (ops : list (sv_op T)) : snap (list T) * list bool :=
  match ops with
  | [] => (s, [])
  | o :: ops' => let (s1, t) := vspec_step s o in let (s2, ts) := vspec_run s1 ops' in (s2, t :: ts)
  end.

(** Maps: contents are functions from keys to values.  [over] tells whether inserting an existing key
    replaces the value (map) or not (set). *)
Section M.
  Context {K V : Type}.
  Variable eqb : K -> K -> bool.
  Variable over : bool.
  Definition fupd (k : K) (v : V) (m : K -> option V) : K -> option V :=
    match m k, over with
    | Some _, false => m
    | _, _ => fun k' => if eqb k' k then Some v else m k'
    end.
  Definition mspec_step (s : snap (K -> option V)) (o : sm_op K V) : snap (K -> option V) * bool :=
    match o with
    | MInsert k v => ((fupd k v (fst s), snd s), false)
    | MPush => (snap_push s, false)
    | MPop => snap_pop s
    | MClear => ((fun _ => None, []), false)
    end.
  Fixpoint mspec_run (s : snap (K -> option V)) (ops : list (sm_op K V)) : snap (K -> option V) * list bool :=
    match ops with
    | [] => (s, [])
    | o :: ops' => let (s1, t) := mspec_step s o in let (s2, ts) := mspec_run s1 ops' in (s2, t :: ts)
    end.
End M.
