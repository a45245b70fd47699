(** * Specification of delta-sat answers (C02)

    Independent of how the solver works: when a check reports a model, every point of the box that was
    accepted satisfies the delta-weakening of every assertion, except for comparisons that the solver cannot
    guarantee ([unguarded]). *)
From Coq Require Import ZArith Reals List Bool.
From Flocq Require Import Core.Core IEEE754.BinarySingleNaN.
From Verif Require Import Dbl Syntax Sem Interval IEval Contr Icp Filter Theory SpecForm IteElim Context SpecCtx SpecModel.
Import ListNotations.
Local Notation R := Rdefinitions.R.
Local Open Scope R_scope.

(** ** Bounds moved to a neighbouring double stay within [delta] *)
(** The doubles of a bound literal are less than [delta] from each other and from their successors. *)
Definition bounds_small (delta : R) (f : formula) : Prop :=
  match bound_lit f with
  | Some (_, _, cs) => forall c c', In c cs -> In c' cs -> B2R c - B2R c' < delta /\ B2R (Bsucc c) - B2R c' < delta
  | None => True
  end.

(** The delta-weakening ([weak] of IEval.v) with comparisons excused by [exc]; [pol = false]: of the negation. *)
Section Weakened.
  Variables (M : interp) (delta : R) (exc : expr -> expr -> env -> Prop).
  Fixpoint weakened (pol : bool) (f : formula) (rho : env) {struct f} : Prop :=
    match f with
    | FTrue => pol = true
    | FFalse => pol = false
    | FVar v => if pol then rho v = 1 else rho v <> 1
    | FRel o a b => weakR delta (if pol then o else relop_neg o) (evalE M a rho) (evalE M b rho) \/ exc a b rho
    | FAnd fs => if pol then fold_right (fun g acc => weakened true g rho /\ acc) True fs
                 else fold_right (fun g acc => weakened false g rho \/ acc) False fs
    | FOr fs => if pol then fold_right (fun g acc => weakened true g rho \/ acc) False fs
                else fold_right (fun g acc => weakened false g rho /\ acc) True fs
    | FNot g => weakened (negb pol) g rho
    | FForall vs g =>
        if pol then forall rho', agree_off vs rho rho' -> (forall v, In v vs -> typed_val (vty v) (rho' v)) -> weakened true g rho'
        else exists rho', agree_off vs rho rho' /\ (forall v, In v vs -> typed_val (vty v) (rho' v)) /\ weakened false g rho'
    end.
End Weakened.

(** Comparisons without the guarantee at a point of the box [B]: a side is undefined there; or no variable of
    the comparison can be split any further in [B] (Box::is_bisectable), so that the comparison was accepted
    however wide its evaluation; or it bounds a variable by a literal whose neighbouring double is [delta] away. *)
Definition unguarded (M : interp) (D : pdom) (mid : dbl -> dbl -> dbl) (delta : R) (B : box) (x y : expr) (rho : env) : Prop :=
  ~ (defE M D x rho /\ defE M D y rho) \/
  (forall v, In v (fvE x ++ fvE y) -> i_bisectable mid (b_getv B v) = false) \/
  ~ bounds_small delta (FRel RGt x y).

(** The reported interval of [v] lies in the accepted one. *)
Definition reported_inside (precision : dbl) (v : var) (i : ival) : Prop :=
  vty v = CONTINUOUS \/ dgt (i_diam i) precision = false \/ (int_ends i /\ (vty v <> INTEGER -> forall x, imem x i -> 0 <= x <= 1)).

(** The answer [r] about the problem [p]: an accepted box [B] which the reported model tightens, all of whose
    points satisfy the weakened assertions. *)
Definition delta_ok (M : interp) (D : pdom) (mid : dbl -> dbl -> dbl) (precision : dbl) (p : problem) (r : option box) : Prop :=
  forall m, r = Some m -> exists B,
    box_ok B /\ b_empty B = false /\ (forall v, declared p v -> In v (bvars B)) /\
    (forall v, In v (bvars m) -> In v (bvars B) /\
       ((exists x, imem x (b_getv B v)) -> tight_ok precision (vty v) (b_getv B v) (b_getv m v)) /\ ((forall x, ~ imem x (b_getv B v)) -> forall x, ~ imem x (b_getv m v))) /\
    forall f, In f (p_asserts p) -> forall rho,
      (forall v, In v (fvF f) -> imem (rho v) (b_getv B v)) \/
      (forall v, In v (fvF f) -> In v (bvars m) /\ imem (rho v) (b_getv m v) /\ reported_inside precision v (b_getv B v)) ->
      weakened M (B2R precision) (unguarded M D mid (B2R precision) B) true f rho.

(** Calls covered: assertions without if-then-else, simplified by the constructors (no comparison that
    [fold] reduces); domains are set before anything is asserted about them; [false] is not asserted before the
    first declaration. *)
Definition delta_op (fold : expr -> expr -> option dbl) (p : problem) (o : cop) : Prop :=
  match o with
  | OAssert f => hasIteF f = false /\ unfolded fold f /\ (f = FFalse -> p_doms p <> [])
  | OSetInterval _ _ _ => p_asserts p = []
  | ODeclareDom v _ _ _ => declared p v -> p_asserts p = []
  | _ => True
  end.
Fixpoint delta_ops (fold : expr -> expr -> option dbl) (ops : list cop) (st : problem * list problem) : Prop :=
  match ops with [] => True | o :: r => delta_op fold (fst st) o /\ delta_ops fold r (p_step o st) end.
