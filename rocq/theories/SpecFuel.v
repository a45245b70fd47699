(** * What it means that an operation finishes

    The model runs a recursive operation of the library with a budget for the depth of its calls.  It finishes if some
    budget is enough: no larger budget changes anything, and the outcome is a value, an exception or undefined
    behaviour, never "the budget is used up".  *)
From Coq Require Import List.
From Verif Require Import ExprAlg.

Definition finishes {A} (run : nat -> comp A) : Prop :=
  exists enough, forall budget, enough <= budget -> run budget = run enough /\ fst (run budget) <> Fuel.
(** The same with two budgets *)
Definition finishes2 {A} (run : nat -> nat -> comp A) : Prop :=
  exists enough enough', forall budget budget', enough <= budget -> enough' <= budget' ->
    run budget budget' = run enough enough' /\ fst (run budget budget') <> Fuel.
