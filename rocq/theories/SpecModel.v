(** * Specification of the reported model

    Independent of the solver's data structures: which variables the user asked to see in the model at each
    check of a history, and what tightening may do to one dimension. *)
From Coq Require Import ZArith Reals List Bool.
From Flocq Require Import Core.Core IEEE754.BinarySingleNaN.
From Verif Require Import Dbl Syntax Sem Interval Contr Icp Theory Context SpecCtx.
Import ListNotations.

(** Variables declared with is_model_variable = true so far (a Pop does not forget them). *)
Definition mark (o : cop) (ms : list var) : list var := match o with ODeclare v true | ODeclareDom v _ _ true => v :: ms | _ => ms end.
(** The problem and the model variables of each check of a history. *)
Fixpoint checks (ops : list cop) (st : problem * list problem) (ms : list var) : list (problem * list var) :=
  match ops with
  | [] => []
  | OCheck _ as o :: r => (fst st, ms) :: checks r (p_step o st) ms
  | o :: r => checks r (p_step o st) (mark o ms)
  end.

(** Integral bounds. *)
Definition int_ends (i : ival) : Prop :=
  match i with
  | IEmpty => True
  | IV l u => (is_finite l = true -> exists z, B2R l = IZR z) /\ (is_finite u = true -> exists z, B2R u = IZR z)
  end.
(** Domains of integer-valued variables that the model theorems cover: integral bounds, within [0, 1] for
    Binary and Boolean variables, and both truth values for Boolean ones. *)
Definition typed_dom (v : var) (l u : dbl) : Prop :=
  match vty v with
  | CONTINUOUS => True
  | INTEGER => int_ends (IV l u)
  | BINARY => int_ends (IV l u) /\ forall x, between l u x -> (0 <= x <= 1)%R
  | BOOLEAN => int_ends (IV l u) /\ (forall x, between l u x -> (0 <= x <= 1)%R) /\ between l u 0 /\ between l u 1
  end.
Definition op_typed (o : cop) : Prop := match o with ODeclareDom v l u _ | OSetInterval v l u => typed_dom v l u | _ => True end.

(** Distance between neighbouring doubles at [x]. *)
Definition ulp64 (x : R) : R := ulp radix2 (SpecFloat.fexp prec64 emax64) x.
(** [j] is what the model may report for a dimension of type [t] whose accepted interval is [i]. *)
Definition tight_ok (precision : dbl) (t : vtype) (i j : ival) : Prop :=
  (exists x, imem x j) /\
  match t with
  | CONTINUOUS => (forall x, imem x j -> imem x i) /\
      exists c, imem c j /\
        (Rabs c + B2R precision <= bpow radix2 1023 ->
         forall x, imem x j -> Rabs (x - c) <= B2R precision / 2 + ulp64 (Rabs c + B2R precision))%R
  | INTEGER => (dgt (i_diam i) precision = true -> exists z, forall x, imem x j <-> x = IZR z) /\
      (dgt (i_diam i) precision = false -> j = i) /\
      (forall d, i_ok d -> int_ends d -> (forall x, imem x i -> imem x d) -> forall x, imem x j -> imem x d)
  | BINARY | BOOLEAN => (dgt (i_diam i) precision = true -> forall x, imem x j <-> x = 1%R) /\
      (dgt (i_diam i) precision = false -> j = i) /\
      (forall d, i_ok d -> int_ends d -> (forall x, imem x d -> 0 <= x <= 1)%R -> (forall x, imem x i -> imem x d) -> forall x, imem x j -> imem x d)
  end.
(** The box that a check accepts, when the box of the context is [b]: [b] with Boolean variables fixed, or a
    part of it returned by the theory solver [T]. *)
Definition accepted_box (T : nat -> box -> list formula -> option tres) (b B : box) : Prop :=
  exists b1, bvars b1 = bvars b /\ (forall v, In v (bvars b) -> vty v <> BOOLEAN -> b_getv b1 v = b_getv b v) /\
    (B = b1 \/ box_sub B b1 /\ exists t fs, T t b1 fs = Some (TSat B)).
(** The answer [r] of a check about the problem [p] when the user marked the variables [ms]: exactly those are
    reported (if they are all still declared), each within its domain. *)
Definition model_ok (p : problem) (ms : list var) (r : option box) : Prop := forall m, r = Some m ->
  (forall v, declared p v -> In v ms -> In v (bvars m)) /\
  ((forall v, In v ms -> declared p v) -> forall v, In v (bvars m) -> In v ms) /\
  (forall v d x, In (v, d) (p_doms p) -> In v (bvars m) -> imem x (b_getv m v) -> d x).
