(** * Absorbing bound assertions into the box

    Models solver/filter_assertion.cc. *)
From Coq Require Import ZArith Reals List Bool.
From Flocq Require Import IEEE754.BinarySingleNaN.
From Verif Require Import Dbl Syntax Sem Interval IEval.
Import ListNotations.

(** FilterAssertionResult, filter_assertion.h *)
Inductive fres := NotFiltered | FilteredWithChange | FilteredWithoutChange.

(** UpdateBoundsViaEquality(var, v, box), 31-45 *)
Definition upd_eq (v : var) (c : dbl) (b : box) : fres * box :=
  let i := b_getv b v in
  if deq (ilb i) (iub i) && deq (ilb i) c then (FilteredWithoutChange, b)
  else if i_contains i c then (FilteredWithChange, b_setv b v (i_point c))
  else (FilteredWithChange, b_set_empty b).
(** UpdateBoundsViaEquality(var, lb, ub, box), 48-63 *)
Definition upd_eq2 (v : var) (l u : dbl) (b : box) : fres * box :=
  let i := b_getv b v in
  if deq (ilb i) l && deq (iub i) u then (FilteredWithoutChange, b)
  else
    let j := i_inter i (mk_ival l u) in
    if i_empty j then (FilteredWithChange, b_set_empty (b_setv b v j)) else (FilteredWithChange, b_setv b v j).
(** UpdateLowerBound, 66-80 *)
Definition upd_lb (v : var) (c : dbl) (b : box) : fres * box :=
  let i := b_getv b v in
  if dle c (ilb i) then (FilteredWithoutChange, b)
  else if dle c (iub i) then (FilteredWithChange, b_setv b v (mk_ival c (iub i)))
  else (FilteredWithChange, b_set_empty b).
(** UpdateUpperBound, 107-121 *)
Definition upd_ub (v : var) (c : dbl) (b : box) : fres * box :=
  let i := b_getv b v in
  if dge c (iub i) then (FilteredWithoutChange, b)
  else if dge c (ilb i) then (FilteredWithChange, b_setv b v (mk_ival (ilb i) c))
  else (FilteredWithChange, b_set_empty b).
(** UpdateStrictLowerBound, 90-104; [None]: DREAL_UNREACHABLE throws *)
Definition upd_slb (v : var) (c : dbl) (b : box) : option (fres * box) :=
  match vty v with
  | CONTINUOUS => Some (upd_lb v (dnextafter c dmax) b)
  | INTEGER | BINARY => Some (NotFiltered, snd (upd_lb v c b))
  | BOOLEAN => None
  end.
(** UpdateStrictUpperBound, 131-145: the second argument is numeric_limits<double>::min() *)
Definition upd_sub (v : var) (c : dbl) (b : box) : option (fres * box) :=
  match vty v with
  | CONTINUOUS => Some (upd_ub v (dnextafter c dmin_normal) b)
  | INTEGER | BINARY => Some (NotFiltered, snd (upd_ub v c b))
  | BOOLEAN => None
  end.

(** VisitEqualTo, 172-210 *)
Definition filt_eq (l r : expr) (pol : bool) (b : box) : option (fres * box) :=
  if negb pol then Some (NotFiltered, b)
  else match l, r with
       | EVar v, EConst c | EConst c, EVar v => Some (upd_eq v c b)
       | EVar v, EReal lo hi _ | EReal lo hi _, EVar v => Some (upd_eq2 v lo hi b)
       | _, _ => Some (NotFiltered, b)
       end.
(** VisitGreaterThan, 216-268 *)
Definition filt_gt (l r : expr) (pol : bool) (b : box) : option (fres * box) :=
  match l, r with
  | EVar v, EConst c => if pol then upd_slb v c b else Some (upd_ub v c b)
  | EVar v, EReal lo hi _ => if pol then upd_slb v lo b else Some (upd_ub v hi b)
  | EConst c, EVar v => if pol then upd_sub v c b else Some (upd_lb v c b)
  | EReal lo hi _, EVar v => if pol then upd_sub v hi b else Some (upd_lb v lo b)
  | _, _ => Some (NotFiltered, b)
  end.
(** VisitGreaterThanOrEqualTo, 269-321 *)
Definition filt_geq (l r : expr) (pol : bool) (b : box) : option (fres * box) :=
  match l, r with
  | EVar v, EConst c => if pol then Some (upd_lb v c b) else upd_sub v c b
  | EVar v, EReal lo hi _ => if pol then Some (upd_lb v lo b) else upd_sub v hi b
  | EConst c, EVar v => if pol then Some (upd_ub v c b) else upd_slb v c b
  | EReal lo hi _, EVar v => if pol then Some (upd_ub v hi b) else upd_slb v lo b
  | _, _ => Some (NotFiltered, b)
  end.
(** AssertionFilter::Visit, 147-358 *)
Fixpoint filt (f : formula) (pol : bool) (b : box) : option (fres * box) :=
  match f with
  | FRel o l r =>
      match o with
      | REq => filt_eq l r pol b
      | RNeq => filt_eq l r (negb pol) b
      | RGt => filt_gt l r pol b
      | RGeq => filt_geq l r pol b
      | RLt => filt_geq l r (negb pol) b
      | RLeq => filt_gt l r (negb pol) b
      end
  | FNot g => filt g (negb pol) b
  | _ => Some (NotFiltered, b)
  end.
(** FilterAssertion, 363-366 *)
Definition filter_assertion (f : formula) (b : box) : option (fres * box) := filt f true b.

(** ** Specification *)
(** The constants of a comparison between a variable and a constant. *)
Definition consts_of (e : expr) : list dbl := match e with EConst c => [c] | EReal l u _ => [l; u] | _ => [] end.
Fixpoint bound_lit (f : formula) : option (relop * var * list dbl) :=
  match f with
  | FNot g => bound_lit g
  | FRel o (EVar v) k => Some (o, v, consts_of k)
  | FRel o k (EVar v) => Some (o, v, consts_of k)
  | _ => None
  end.
(** The relation a literal asserts once its negations are pushed in. *)
Fixpoint lit_kind (f : formula) (pol : bool) : option relop :=
  match f with
  | FNot g => lit_kind g (negb pol)
  | FRel o _ _ => Some (if pol then o else relop_neg o)
  | _ => None
  end.
Definition strict_lit (f : formula) (pol : bool) : bool :=
  match lit_kind f pol with Some RGt | Some RLt => true | _ => false end.
(** For a strict comparison of a real variable with constants: the assignment does not put the variable
    strictly between one of the constants and a neighbouring double.  No condition on other literals. *)
Definition gap_free_pol (f : formula) (pol : bool) (rho : env) : Prop :=
  strict_lit f pol = true ->
  match bound_lit f with
  | Some (_, v, cs) => vty v = CONTINUOUS -> forall c, In c cs ->
      ~ (ext_lt (d2e c) (Fin (rho v)) /\ ext_lt (Fin (rho v)) (d2e (Bsucc c))) /\
      ~ (ext_lt (d2e (Bpred c)) (Fin (rho v)) /\ ext_lt (Fin (rho v)) (d2e c))
  | None => True
  end.
Definition gap_free (f : formula) (rho : env) : Prop := gap_free_pol f true rho.
(** A comparison with one double; a strict one only with a double above DBL_MIN and below DBL_MAX. *)
Definition exact_lit (f : formula) (pol : bool) : Prop :=
  exists o v c, bound_lit f = Some (o, v, [c]) /\
    (strict_lit f pol = true -> dlt dmin_normal c = true /\ dlt c dmax = true).
Fixpoint finF (f : formula) : Prop :=
  match f with
  | FNot g => finF g
  | FRel _ a b => finE a /\ finE b
  | _ => True
  end.
(** One component of the box narrowed to the points satisfying [P]; the whole box emptied if there are none. *)
Definition narrowed (P : R -> Prop) (i : nat) (b b' : box) : Prop :=
  (b' = b_set_empty b /\ forall x, imem x (b_get b i) -> ~ P x) \/
  (exists y, b' = b_set b i y /\ i_ok y /\ i_empty y = false /\ forall x, imem x y <-> imem x (b_get b i) /\ P x).
