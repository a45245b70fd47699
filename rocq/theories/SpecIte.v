(** * Vocabulary for the elimination of if-then-else terms (independent of the eliminator) *)
From Coq Require Import ZArith Reals List Bool.
From Verif Require Import Dbl Syntax Sem FormulaCons IEval Filter IteElim.
Import ListNotations.

(** All variables occurring in a term or formula, bound ones included. *)
Fixpoint avE (e : expr) : list var :=
  match e with
  | EConst _ | EReal _ _ _ => []
  | EVar v => [v]
  | EAdd _ ts => flat_map (fun p => match p with (a, _) => avE a end) ts
  | EMul _ ts => flat_map (fun p => match p with (a, b) => avE a ++ avE b end) ts
  | EUn _ a => avE a
  | EBin _ a b => avE a ++ avE b
  | EIte f a b => avF f ++ avE a ++ avE b
  | EUf _ vs => vs
  end
with avF (f : formula) : list var :=
  match f with
  | FTrue | FFalse => []
  | FVar v => [v]
  | FRel _ a b => avE a ++ avE b
  | FAnd fs => flat_map avF fs
  | FOr fs => flat_map avF fs
  | FNot g => avF g
  | FForall vs g => vs ++ avF g
  end.

(** Identifiers below the counter: already handed out. *)
Definition bnd (n : nat) (l : list var) : Prop := forall v, In v l -> vid v < n.

(** No quantified body contains an if-then-else term. *)
Fixpoint qplainE (e : expr) : Prop :=
  match e with
  | EConst _ | EReal _ _ _ | EVar _ | EUf _ _ => True
  | EAdd _ ts => fold_right (fun p acc => match p with (a, _) => qplainE a /\ acc end) True ts
  | EMul _ ts => fold_right (fun p acc => match p with (a, b) => (qplainE a /\ qplainE b) /\ acc end) True ts
  | EUn _ a => qplainE a
  | EBin _ a b => qplainE a /\ qplainE b
  | EIte f a b => qplainF f /\ qplainE a /\ qplainE b
  end
with qplainF (f : formula) : Prop :=
  match f with
  | FTrue | FFalse | FVar _ => True
  | FRel _ a b => qplainE a /\ qplainE b
  | FAnd fs => fold_right (fun g acc => qplainF g /\ acc) True fs
  | FOr fs => fold_right (fun g acc => qplainF g /\ acc) True fs
  | FNot g => qplainF g
  | FForall _ g => hasIteF g = false
  end.

(** Rebuilding the node [n] with the simplifying operators changed neither its value nor where it is
    defined, and introduced no variable and no if-then-else term; the result is not a constant. *)
Definition node_exact (M : interp) (D : pdom) (K : eops) (n : expr) : Prop :=
  (forall rho, evalE M (rebuild K n) rho = evalE M n rho) /\
  (forall rho, defE M D n rho -> defE M D (rebuild K n) rho) /\
  incl (fvE (rebuild K n)) (fvE n) /\
  (hasIteE n = false -> hasIteE (rebuild K n) = false) /\
  incl (consts_of (rebuild K n)) (consts_of n).

(** Constant folding decided the comparison of [a] and [b] correctly (or did not happen). *)
Definition cmp_exact (M : interp) (fold : expr -> expr -> option dbl) (a b : expr) : Prop :=
  forall op rho, holds M (mk_rel fold op a b) rho <-> relR op (evalE M a rho) (evalE M b rho).
