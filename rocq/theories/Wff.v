(** * Well-formed input formulas (specification vocabulary)

    Finite numeric literals; every variable of a term satisfies [q], every variable used as a formula
    satisfies [pv], every quantified variable satisfies [bq].  The body of a
    quantified formula has no if-then-else, no variable used as a formula and no further quantifier.
    With [bq] false of every variable the formulas are quantifier-free. *)
From Coq Require Import ZArith Reals List Bool.
From Flocq Require Import IEEE754.BinarySingleNaN.
From Verif Require Import Dbl Syntax FormulaCons IEval.
Import ListNotations.

(** Bodies of quantified formulas, over variables satisfying [q]. *)
Fixpoint bodyF (q : var -> Prop) (f : formula) : Prop :=
  match f with
  | FTrue | FFalse => True
  | FVar _ | FForall _ _ => False
  | FRel _ a b => (finE a /\ finE b) /\ (hasIteE a = false /\ hasIteE b = false) /\ forall v, In v (fvE a ++ fvE b) -> q v
  | FAnd fs => fold_right (fun g acc => bodyF q g /\ acc) True fs
  | FOr fs => fold_right (fun g acc => bodyF q g /\ acc) True fs
  | FNot g => bodyF q g
  end.
Section Wf.
  Variables q pv bq : var -> Prop.
  Fixpoint wfE (e : expr) : Prop :=
    match e with
    | EConst c => is_finite c = true
    | EReal lb ub _ => dle lb ub = true /\ is_finite lb = true /\ is_finite ub = true
    | EVar v => q v
    | EUf _ vs => forall v, In v vs -> q v
    | EAdd c ts => is_finite c = true /\
        fold_right (fun p acc => match p with (a, k) => (wfE a /\ is_finite k = true) /\ acc end) True ts
    | EMul c ts => is_finite c = true /\
        fold_right (fun p acc => match p with (a, b) => (wfE a /\ wfE b) /\ acc end) True ts
    | EUn _ a => wfE a
    | EBin _ a b => wfE a /\ wfE b
    | EIte f a b => wfF f /\ wfE a /\ wfE b
    end
  with wfF (f : formula) : Prop :=
    match f with
    | FTrue | FFalse => True
    | FVar v => pv v
    | FRel _ a b => wfE a /\ wfE b
    | FAnd fs => fold_right (fun g acc => wfF g /\ acc) True fs
    | FOr fs => fold_right (fun g acc => wfF g /\ acc) True fs
    | FNot g => wfF g
    | FForall vs g => ((exists v, bq v) /\ forall v, In v vs -> bq v) /\ bodyF (fun v => q v \/ In v vs) g
    end.
End Wf.
