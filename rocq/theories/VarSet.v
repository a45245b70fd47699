(** Sets of variables as ordered sequences, and the intersection test (C45). *)
From Coq Require Import List Bool Arith.
From Verif Require Import Syntax.
Import ListNotations.

(** Variables, third_party/.../symbolic/symbolic_variables.h: std::set<Variable> ordered by
    Variable::less (symbolic_variable.h:70), i.e. by id.  An iteration visits it in that order. *)
Definition v_less (a b : var) : bool := vid a <? vid b.
(** Variables::insert, symbolic_variables.h:101 (std::set::insert) *)
Fixpoint vs_insert (x : var) (l : list var) : list var :=
  match l with
  | [] => [x]
  | y :: l' => if v_less x y then x :: l else if v_less y x then y :: vs_insert x l' else l
  end.
Definition vs_of (l : list var) : list var := fold_left (fun s x => vs_insert x s) l [].
(** HaveIntersection, symbolic/symbolic.cc:145-162 *)
Fixpoint have_intersection (l1 : list var) : list var -> bool :=
  fix go (l2 : list var) : bool :=
    match l1, l2 with
    | [], _ | _, [] => false
    | a :: l1', b :: l2' =>
        if v_less a b then have_intersection l1' l2
        else if negb (v_less b a) then true else go l2'
    end.
