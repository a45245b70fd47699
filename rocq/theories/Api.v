(** * The library interface: CheckSatisfiability and Minimize

    Models dreal/api/api.cc.  A fresh context (solver/context.cc, Context.v) is built from the configuration; [nx] is
    the global counter of variable identifiers at the time of the call.  The overloads taking [delta] build a
    configuration with that precision and call the ones modelled here (api.cc:26-30, 41-45, 58-63, 80-85).

    [T precision] is the theory solver for a precision; the other options of the configuration are part of [T], [K] and
    [mid].  [None] as outcome of a run: the context is used outside its contract (an assertion of the code fails) or
    a bound on recursion is reached. *)
From Coq Require Import ZArith List Bool.
From Flocq Require Import IEEE754.BinarySingleNaN.
From Verif Require Import Dbl Syntax Interval VarSet ExprAlg IEval Contr Icp Theory IteElim Sat Context Minim.
Import ListNotations.

Section Api.
  Variables (fold : expr -> expr -> option dbl) (K : eops) (pico : pico_t) (T : dbl -> nat -> box -> list formula -> option tres) (mid : dbl -> dbl -> dbl).
  Variables (fpow : dbl -> dbl -> dbl) (n : nat).

  (** The declarations: for (v : f.GetFreeVariables()) context.DeclareVariable(v), api.cc:34-36, 67-72 *)
  Definition declare_all (l : list var) : list cop := map (fun v => ODeclare v true) (vs_of l).
  (** The last answer of a run *)
  Definition answer (r : option (ctx * list (option box))) : option (option box) :=
    match r with Some (_, [a]) => Some a | _ => None end.

  (** CheckSatisfiability(f, config), api.cc:32-39 *)
  Definition api_check (f : formula) (precision : dbl) (nx fuel : nat) : option (option box) :=
    answer (cx_run fold K pico (T precision) mid precision (declare_all (fvF f) ++ [OAssert f; OCheck fuel]) (cx_init nx)).

  (** Minimize(objective, constraint, config), api.cc:65-78 *)
  Definition api_minimize (g : expr) (f : formula) (precision : dbl) (nx fuel : nat) : comp (option (option box)) :=
    match cx_run fold K pico (T precision) mid precision (declare_all (fvF f) ++ declare_all (fvE g) ++ [OAssert f]) (cx_init nx) with
    | Some (c, []) =>
        ExprAlg.bind (minimize1 fpow n g c) (fun ops => ret (answer (cx_run fold K pico (T precision) mid precision (ops ++ [OCheck fuel]) c)))
    | _ => ret None
    end.

  (** The overloads with a pointer to a box, api.cc:47-56 and 87-98: the result and what *box holds afterwards *)
  Definition into_box (result : option box) (old : box) : bool * box :=
    match result with Some b => (true, b) | None => (false, old) end.
  Definition api_check_box (f : formula) (precision : dbl) (nx fuel : nat) (old : box) : option (bool * box) :=
    match api_check f precision nx fuel with Some r => Some (into_box r old) | None => None end.
  Definition api_minimize_box (g : expr) (f : formula) (precision : dbl) (nx fuel : nat) (old : box) : comp (option (bool * box)) :=
    ExprAlg.bind (api_minimize g f precision nx fuel) (fun o => ret (match o with Some r => Some (into_box r old) | None => None end)).
End Api.
