(** * When propagation is finished

    A contractor is at rest on a box if running it does not narrow any component. *)
From Coq Require Import Reals List Bool.
From Flocq Require Import Core.Core IEEE754.BinarySingleNaN.
From Verif Require Import Dbl Syntax Interval Contr.
Import ListNotations.

Definition same_set (i j : ival) : Prop := forall x, imem x i <-> imem x j.
Definition at_rest (Orc : oracles) (term : list ival -> list ival -> bool) (c : contractor) (b : box) : Prop :=
  forall n s s', cs_box s = b -> prune Orc term n c s = Some s' -> forall i, same_set (b_get (cs_box s') i) (b_get b i).

(** The contractors the theory solver puts on the list: no nesting *)
Definition single (c : contractor) : Prop :=
  match c with CFwd _ | CPoly _ | CForall _ | CInteger _ => True | _ => False end.
(** Assumption on the constraint library: whether it narrows a box is decided by the components of the constraint's
    own variables. *)
Definition decided_by_inputs (Orc : oracles) (term : list ival -> list ival -> bool) (vars : list var) (c : contractor) : Prop :=
  match c with
  | CInteger _ => True
  | _ => forall b b', box_ok b -> box_ok b' -> b_full b -> b_full b' -> bvars b = vars -> bvars b' = vars ->
      (forall i, c_input vars c i = true -> same_set (b_get b i) (b_get b' i)) -> at_rest Orc term c b -> at_rest Orc term c b'
  end.

(** The stop rule: component [i] became [j] with real progress, where the width is upper minus lower
    bound rounded up, and unbounded if that is not a finite double. *)
Definition bounded (i : ival) : Prop := is_finite (i_diam i) = true.
Definition clear_progress (i j : ival) : Prop :=
  bounded j /\ (~ bounded i \/ (0 < B2R (i_diam i) /\ B2R (i_diam j) <= 98 / 100 * B2R (i_diam i))%R).
Definition some_progress (i j : ival) : Prop :=
  bounded j /\ (~ bounded i \/ (B2R (i_diam j) <= 991 / 1000 * B2R (i_diam i))%R).

(** Component [i] is not the same interval before and after; component [i] belongs to a free variable of [f]. *)
Definition differs (s s' : cstat) (i : nat) : Prop := ~ same_set (b_get (cs_box s) i) (b_get (cs_box s') i).
Definition reads (vars : list var) (f : formula) (i : nat) : Prop := exists v, nth_error vars i = Some v /\ In v (fvF f).
