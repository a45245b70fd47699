(** * Intervals and boxes

    ibex::Interval and ibex::IntervalVector are a third-party library; the parts of their interface
    that dReal uses directly are modelled here, the interval arithmetic itself is an oracle of the
    theorems that need it. *)
From Coq Require Import ZArith Reals List Bool.
From Flocq Require Import IEEE754.BinarySingleNaN.
From Verif Require Import Dbl Syntax Sem.
Import ListNotations.

(** ibex::Interval: the empty set or [lb, ub] with double bounds. *)
Inductive ival := IEmpty | IV (lb ub : dbl).

(** ibex::Interval(double, double): the empty set unless lb <= ub, lb < +oo and -oo < ub
    (used at box.cc:112, 206-207; context_impl.cc:357). *)
Definition mk_ival (l u : dbl) : ival :=
  if dle l u && negb (deq l dpinf) && negb (deq u dninf) then IV l u else IEmpty.

Definition i_empty (i : ival) : bool := match i with IEmpty => true | _ => false end.
(** lb()/ub() of the empty interval are NaN. *)
Definition ilb (i : ival) : dbl := match i with IEmpty => dnan | IV l _ => l end.
Definition iub (i : ival) : dbl := match i with IEmpty => dnan | IV _ u => u end.
Definition i_all : ival := IV dninf dpinf.     (* Interval::ALL_REALS, the default constructor *)
Definition i_point (c : dbl) : ival := mk_ival c c.   (* Interval(double) *)

(** Specification: the reals an interval contains. *)
Definition imem (x : R) (i : ival) : Prop :=
  match i with IEmpty => False | IV l u => ext_le (d2e l) (Fin x) /\ ext_le (Fin x) (d2e u) end.
(** Intervals the library can hold. *)
Definition i_ok (i : ival) : Prop :=
  match i with IEmpty => True | IV l u => dle l u = true /\ deq l dpinf = false /\ deq u dninf = false end.

Definition dmaxf (x y : dbl) : dbl := if dlt x y then y else x.
Definition dminf (x y : dbl) : dbl := if dlt y x then y else x.
(** operator&  (intersection), operator| (hull). *)
Definition i_inter (a b : ival) : ival :=
  match a, b with IV l u, IV l' u' => mk_ival (dmaxf l l') (dminf u u') | _, _ => IEmpty end.
Definition i_hull (a b : ival) : ival :=
  match a, b with
  | IEmpty, _ => b
  | _, IEmpty => a
  | IV l u, IV l' u' => IV (dminf l l') (dmaxf u u')
  end.
(** diam(): ub - lb rounded upward; 0 for the empty interval. *)
Definition i_diam (i : ival) : dbl := match i with IEmpty => dzero | IV l u => Bminus mode_UP u l end.
(** operator==: both empty, or equal bounds. *)
Definition i_eqb (a b : ival) : bool :=
  match a, b with
  | IEmpty, IEmpty => true
  | IV l u, IV l' u' => deq l l' && deq u u'
  | _, _ => false
  end.
(** Interval::contains(double): false on the empty interval. *)
Definition i_contains (i : ival) (c : dbl) : bool :=
  match i with IEmpty => false | IV l u => dle l c && dle c u end.

(** ** Boxes (util/box.h:32-140)
    [bvars] is variables_, [bvals] is values_ (an ibex::IntervalVector).  The shared index maps are
    determined by [bvars]; sharing itself is modelled separately in BoxHeap.v.  A box with no
    variables still has one interval component (box.cc:44-53). *)
Record box := mkBox { bvars : list var; bvals : list ival }.

Fixpoint upd_nth {A} (n : nat) (x : A) (l : list A) : list A :=
  match l, n with
  | [], _ => []
  | _ :: l', O => x :: l'
  | y :: l', S n' => y :: upd_nth n' x l'
  end.

(** Box::Box(), box.cc:44-53 *)
Definition box0 : box := mkBox [] [i_all].
(** Box::empty(), box.cc:115; IntervalVector::is_empty() looks at component 0 only. *)
Definition b_empty (b : box) : bool := i_empty (nth 0 (bvals b) IEmpty).
(** Box::set_empty(), box.cc:117 *)
Definition b_set_empty (b : box) : box := mkBox (bvars b) (map (fun _ => IEmpty) (bvals b)).
Definition b_size (b : box) : nat := length (bvars b).
(** Box::index(var), box.cc:144, for a variable of the box. *)
Fixpoint index_of (v : var) (l : list var) : option nat :=
  match l with
  | [] => None
  | w :: l' => if var_eqb v w then Some 0 else option_map S (index_of v l')
  end.
Definition b_index (b : box) (v : var) : option nat := index_of v (bvars b).
Definition b_has (b : box) (v : var) : bool := mem_var v (bvars b).   (* box.cc:140-142 *)
Definition b_get (b : box) (i : nat) : ival := nth i (bvals b) IEmpty.
Definition b_set (b : box) (i : nat) (x : ival) : box := mkBox (bvars b) (upd_nth i x (bvals b)).
(** operator[](Variable), box.cc:125-134.  For a variable that is not in the box,
    unordered_map::operator[] yields index 0. *)
Definition b_idx0 (b : box) (v : var) : nat := match b_index b v with Some i => i | None => 0 end.
Definition b_getv (b : box) (v : var) : ival := b_get b (b_idx0 b v).
Definition b_setv (b : box) (v : var) (x : ival) : box := b_set b (b_idx0 b v) x.

(** ibex IntervalVector::resize: keeps the existing components, new ones are (-oo, +oo). *)
Definition iv_resize (n : nat) (l : list ival) : list ival := firstn n l ++ repeat i_all (n - length l).

Definition int_max : dbl := dZ 2147483647.
(** Default domain set by Box::Add (box.cc:88-96); [None]: the component is left as it is. *)
Definition default_dom (t : vtype) : option ival :=
  match t with
  | BOOLEAN | BINARY => Some (IV dzero (dZ 1))
  | INTEGER => Some (IV (dopp int_max) int_max)
  | CONTINUOUS => None
  end.
(** Box::Add(v), box.cc:66-97 *)
Definition b_add (b : box) (v : var) : box :=
  let n := b_size b in
  let vals := iv_resize (S n) (bvals b) in
  mkBox (bvars b ++ [v]) (match default_dom (vty v) with Some d => upd_nth n d vals | None => vals end).
(** Box::Add(v, lb, ub), box.cc:99-113 (the assertions are compiled out) *)
Definition b_add_dom (b : box) (v : var) (l u : dbl) : box := b_setv (b_add b v) v (mk_ival l u).

(** Specification: the assignments in a box. *)
Definition in_box (rho : env) (b : box) : Prop :=
  b_empty b = false /\
  forall i v, nth_error (bvars b) i = Some v -> imem (rho v) (b_get b i).
(** Shape invariant of Box objects. *)
Definition box_ok (b : box) : Prop :=
  NoDup (bvars b) /\ length (bvals b) = max 1 (length (bvars b)) /\ Forall i_ok (bvals b).

(** ** Bisection *)
Section Bisect.
  (** ibex::Interval::mid() of a non-empty interval. *)
  Variable mid : dbl -> dbl -> dbl.
  (** Interval::is_bisectable(): lb < mid < ub. *)
  Definition i_bisectable (i : ival) : bool :=
    match i with IEmpty => false | IV l u => dlt l (mid l u) && dlt (mid l u) u end.
  (** Box::bisect_int, box.cc:191-209 *)
  Definition bisect_int (l u : dbl) : ival * ival :=
    let lb := dceil l in
    let ub := dfloor u in
    let mid_floor := dfloor (mid l u) in
    (mk_ival lb mid_floor, mk_ival (dadd mid_floor (dZ 1)) ub).
  (** Box::bisect_continuous, box.cc:211-221, with ibex::Interval::bisect(0.5) *)
  Definition bisect_cont (l u : dbl) : ival * ival := (mk_ival l (mid l u), mk_ival (mid l u) u).
  (** Box::bisect(int), box.cc:162-179; [None] is a thrown exception. *)
  Definition b_bisect (b : box) (i : nat) : option (box * box) :=
    match nth_error (bvars b) i, b_get b i with
    | Some v, IV l u =>
        if i_bisectable (IV l u) then
          match vty v with
          | CONTINUOUS => let (x, y) := bisect_cont l u in Some (b_set b i x, b_set b i y)
          | INTEGER | BINARY => let (x, y) := bisect_int l u in Some (b_set b i x, b_set b i y)
          | BOOLEAN => None
          end
        else None
    | _, _ => None
    end.
  (** Box::bisect(Variable), box.cc:181-189 *)
  Definition b_bisectv (b : box) (v : var) : option (box * box) :=
    match b_index b v with Some i => b_bisect b i | None => None end.

  (** Box::MaxDiam, box.cc:149-160: largest diameter among the bisectable dimensions;
      [None] is the index -1. *)
  Fixpoint maxdiam_loop (vals : list ival) (i n : nat) (best : dbl * option nat) : dbl * option nat :=
    match n, vals with
    | S n', x :: vals' =>
        maxdiam_loop vals' (S i) n'
          (if dgt (i_diam x) (fst best) && i_bisectable x then (i_diam x, Some i) else best)
    | _, _ => best
    end.
  Definition b_maxdiam (b : box) : dbl * option nat := maxdiam_loop (bvals b) 0 (b_size b) (dzero, None).
End Bisect.

(** Box::InplaceUnion, box.cc:223-230 (same variables).  IntervalVector |= : an empty operand is
    ignored, otherwise component-wise hull. *)
Definition b_union (a b : box) : box :=
  if b_empty b then a
  else if b_empty a then mkBox (bvars a) (bvals b)
  else mkBox (bvars a) (map (fun p => i_hull (fst p) (snd p)) (combine (bvals a) (bvals b))).

(** operator==(Box, Box), box.cc:268-273 (std::equal with one length: the first box's). *)
Fixpoint vars_prefix_eqb (l m : list var) : bool :=
  match l, m with
  | [], _ => true
  | x :: l', y :: m' => var_eqb x y && vars_prefix_eqb l' m'
  | _, [] => false
  end.

(** BloatPoint, interval.cc:26-30 *)
Definition bloat_point (c : dbl) : ival := mk_ival (dnextafter c dninf) (dnextafter c dpinf).

(** What the theorems assume of ibex::Interval::mid(). *)
Definition mid_ok (mid : dbl -> dbl -> dbl) : Prop :=
  forall l u, i_ok (IV l u) -> is_finite (mid l u) = true /\ dle l (mid l u) = true /\ dle (mid l u) u = true.
