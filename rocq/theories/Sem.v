(** * Real semantics of expressions and formulas (specification layer)

    This is the meaning against which every property is stated.  It is independent of the
    solver: expressions denote real numbers, formulas denote propositions.

    - Partial real functions (log, division, ...) are interpreted by an arbitrary total
      interpretation [M]; statements quantify over every [M].  Where definedness matters a separate
      predicate is used.
    - A real constant literal [EReal lb ub] (a decimal such as 0.1 that is not a double,
      symbolic_expression_cell.cc:426-437) denotes some real number enclosed by its bounds.
    - A Boolean variable is true when its value is 1. *)
From Coq Require Import ZArith Reals Lra List Bool ClassicalDescription.
From Flocq Require Import IEEE754.BinarySingleNaN.
From Verif Require Import Dbl Syntax.
Import ListNotations.
Local Open Scope R_scope.

Definition env := var -> R.

Record interp := {
  i_un : unop -> R -> R;
  i_bin : binop -> R -> R -> R;
  i_uf : nat -> list R -> R;
  i_rc : dbl -> dbl -> R        (* value of the decimal literal enclosed by [lb, ub] *)
}.

Definition relR (op : relop) (a b : R) : Prop :=
  match op with
  | REq => a = b
  | RNeq => a <> b
  | RGt => a > b
  | RGeq => a >= b
  | RLt => a < b
  | RLeq => a <= b
  end.

Definition isint (x : R) : Prop := exists z : Z, x = IZR z.

(** Values a variable of the given type may take. *)
Definition typed_val (t : vtype) (x : R) : Prop :=
  match t with
  | CONTINUOUS => True
  | INTEGER => isint x
  | BINARY => x = 0 \/ x = 1
  | BOOLEAN => x = 0 \/ x = 1
  end.

Definition well_typed (rho : env) : Prop := forall v, typed_val (vty v) (rho v).

Definition agree_off (vs : list var) (rho rho' : env) : Prop :=
  forall v, ~ In v vs -> rho' v = rho v.

Section Sem.
  Variable M : interp.

  Fixpoint evalE (e : expr) (rho : env) {struct e} : R :=
    match e with
    | EConst c => B2R c
    | EReal lb ub _ => i_rc M lb ub
    | EVar v => rho v
    | EAdd c ts =>
        fold_right (fun p acc => match p with (a, k) => B2R k * evalE a rho + acc end) (B2R c) ts
    | EMul c ts =>
        fold_right (fun p acc => match p with (a, b) => i_bin M BPow (evalE a rho) (evalE b rho) * acc end)
                   (B2R c) ts
    | EUn o a => i_un M o (evalE a rho)
    | EBin o a b => i_bin M o (evalE a rho) (evalE b rho)
    | EIte f a b =>
        if excluded_middle_informative (holds f rho) then evalE a rho else evalE b rho
    | EUf n vs => i_uf M n (map rho vs)
    end
  with holds (f : formula) (rho : env) {struct f} : Prop :=
    match f with
    | FTrue => True
    | FFalse => False
    | FVar v => rho v = 1
    | FRel op a b => relR op (evalE a rho) (evalE b rho)
    | FAnd fs => fold_right (fun g acc => holds g rho /\ acc) True fs
    | FOr fs => fold_right (fun g acc => holds g rho \/ acc) False fs
    | FNot g => ~ holds g rho
    | FForall vs g =>
        forall rho', agree_off vs rho rho' ->
                     (forall v, In v vs -> typed_val (vty v) (rho' v)) -> holds g rho'
    end.

  Definition equivF (f g : formula) : Prop := forall rho, holds f rho <-> holds g rho.
End Sem.

(** The literals' enclosures are honest. *)
Definition rc_ok (M : interp) : Prop :=
  forall lb ub, is_finite lb = true -> is_finite ub = true -> dle lb ub = true -> ext_le (d2e lb) (Fin (i_rc M lb ub)) /\ ext_le (Fin (i_rc M lb ub)) (d2e ub).
