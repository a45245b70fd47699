(** * Regular assignments (specification vocabulary)

    An assignment is regular for a formula if every term of the formula is defined, and every
    comparison (also inside if-then-else conditions) satisfies a side condition [G].  Below a quantifier
    the side condition is asked only of comparisons without quantified variables (and for every operator).  The instance
    used for the verdicts is [off_gaps]: no inequality puts its other side strictly between a constant
    and the neighbouring double (the points lost by bound filtering, see C17). *)
From Coq Require Import ZArith Reals List Bool.
From Flocq Require Import IEEE754.BinarySingleNaN.
From Verif Require Import Dbl Syntax Sem Interval IEval Filter.
Import ListNotations.

Section Reg.
  Variables (M : interp) (D : pdom).
  Definition side := relop -> expr -> expr -> R -> R -> Prop.
  (** [G], for comparisons that mention no variable of [vs]; the operator does not matter, since the
      clausal conversion of a quantified formula splits [=] and [<>] into inequalities. *)
  Definition relax (vs : list var) (G : side) : side :=
    fun _ a b x y => (forall v, In v (fvE a ++ fvE b) -> ~ In v vs) -> forall o, G o a b x y.
  Fixpoint regE (G : side) (e : expr) (rho : env) {struct e} : Prop :=
    match e with
    | EConst _ | EReal _ _ _ | EVar _ | EUf _ _ => True
    | EAdd _ ts => fold_right (fun p acc => match p with (a, _) => regE G a rho /\ acc end) True ts
    | EMul _ ts =>
        fold_right (fun p acc => match p with (a, b) =>
          (regE G a rho /\ regE G b rho /\ d_bin D BPow (evalE M a rho) (evalE M b rho)) /\ acc end) True ts
    | EUn o a => regE G a rho /\ d_un D o (evalE M a rho)
    | EBin o a b => regE G a rho /\ regE G b rho /\ d_bin D o (evalE M a rho) (evalE M b rho)
    | EIte f a b => regF G f rho /\ regE G a rho /\ regE G b rho
    end
  with regF (G : side) (f : formula) (rho : env) {struct f} : Prop :=
    match f with
    | FTrue | FFalse | FVar _ => True
    | FRel o a b => (regE G a rho /\ regE G b rho) /\ G o a b (evalE M a rho) (evalE M b rho)
    | FAnd fs => fold_right (fun g acc => regF G g rho /\ acc) True fs
    | FOr fs => fold_right (fun g acc => regF G g rho /\ acc) True fs
    | FNot g => regF G g rho
    | FForall vs g =>
        forall rho', agree_off vs rho rho' ->
                     (forall v, In v vs -> typed_val (vty v) (rho' v)) -> regF (relax vs G) g rho'
    end.
End Reg.

(** [x] lies strictly between the double [c] and one of its two neighbours. *)
Definition gap (c : dbl) (x : R) : Prop :=
  (ext_lt (d2e c) (Fin x) /\ ext_lt (Fin x) (d2e (Bsucc c))) \/ (ext_lt (d2e (Bpred c)) (Fin x) /\ ext_lt (Fin x) (d2e c)).
Definition is_ineq (o : relop) : bool := match o with REq | RNeq => false | _ => true end.
(** The comparison [a o b], whose sides have the values [x] and [y], is not decided inside a gap. *)
Definition off_gaps (o : relop) (a b : expr) (x y : R) : Prop :=
  is_ineq o = true -> (forall c, In c (consts_of b) -> ~ gap c x) /\ (forall c, In c (consts_of a) -> ~ gap c y).
Definition regular (M : interp) (D : pdom) (f : formula) (rho : env) : Prop := regF M D off_gaps f rho.
