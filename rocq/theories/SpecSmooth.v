(** * What IsDifferentiable promises (C57) *)
From Coq Require Import ZArith Reals List Bool.
From Flocq Require Import IEEE754.BinarySingleNaN.
From Verif Require Import Dbl Syntax Sem StdInterp SpecDiff.
Import ListNotations.
Local Open Scope R_scope.

(** Every arithmetic operation in [e] is applied inside the open part of its domain at [rho].  Nothing is asked of absolute values, minima,
    maxima, if-then-else and uninterpreted functions. *)
Definition const_exponent (g : expr) : bool := match g with EConst _ => true | _ => false end.
Section Inside.
  Variable M : interp.
  Fixpoint inside (e : expr) (rho : env) : Prop :=
    match e with
    | EConst _ | EReal _ _ _ | EVar _ => True
    | EAdd _ ts => fold_right (fun p acc => match p with (a, _) => inside a rho /\ acc end) True ts
    | EMul _ ts => fold_right (fun p acc => match p with (b, g) => (inside b rho /\ inside g rho /\ pow_smooth (const_exponent g) (evalE M b rho) (evalE M g rho)) /\ acc end) True ts
    | EUn UAbs a => inside a rho
    | EUn o a => inside a rho /\ un_smooth o (evalE M a rho)
    | EBin BDiv f g => inside f rho /\ inside g rho /\ evalE M g rho <> 0
    | EBin BPow f g => inside f rho /\ inside g rho /\ pow_smooth (const_exponent g) (evalE M f rho) (evalE M g rho)
    | EBin BAtan2 f g => inside f rho /\ inside g rho /\ (0 < evalE M g rho \/ evalE M f rho <> 0)
    | EBin _ f g => inside f rho /\ inside g rho
    | EIte _ f g => inside f rho /\ inside g rho
    | EUf _ _ => True
    end.
End Inside.

(** Operands, and the expressions and formulas a term is made of *)
Definition operandsE (e : expr) : list expr :=
  match e with
  | EAdd _ ts => map fst ts
  | EMul _ ts => map fst ts ++ map snd ts
  | EUn _ a => [a]
  | EBin _ a b => [a; b]
  | _ => []
  end.
Inductive inE : expr -> expr -> Prop :=
| in_self e : inE e e
| in_arg s a e : In a (operandsE e) -> inE s a -> inE s e.
Inductive inF : formula -> formula -> Prop :=
| inF_self f : inF f f
| inF_and s g fs : In g fs -> inF s g -> inF s (FAnd fs)
| inF_or s g fs : In g fs -> inF s g -> inF s (FOr fs)
| inF_not s g : inF s g -> inF s (FNot g).
(** The expressions that may have a kink *)
Definition kink (e : expr) : Prop :=
  (exists a, e = EUn UAbs a) \/ (exists a b, e = EBin BMin a b) \/ (exists a b, e = EBin BMax a b) \/ (exists f a b, e = EIte f a b) \/ (exists n vs, e = EUf n vs).
Definition kinkF (f : formula) : Prop :=
  (exists vs g, f = FForall vs g) \/ (exists o a b s, f = FRel o a b /\ (inE s a \/ inE s b) /\ kink s).
