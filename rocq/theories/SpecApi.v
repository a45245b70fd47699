(** * Specification of the library interface: the inputs covered and the problem they pose *)
From Coq Require Import ZArith Reals List Bool.
From Verif Require Import Dbl Syntax Sem IEval Contr Icp Theory Regular Wff IteElim SpecIte Context SpecCtx.
Import ListNotations.

(** Identifiers are unique and were handed out before the call. *)
Definition fresh_ids (l : list var) (nx : nat) : Prop :=
  (forall v, In v l -> vid v < nx) /\ forall v w, In v l -> In w l -> vid v = vid w -> v = w.
(** Quantifier-free with finite literals; Boolean variables are used as formulas, the others as terms. *)
Definition qf_formula (f : formula) : Prop := wfF (fun v => vty v <> BOOLEAN) (fun v => vty v = BOOLEAN) (fun _ => False) f.
(** A (regular) point of the default domains that satisfies [f]. *)
Definition satisfies (M : interp) (D : pdom) (f : formula) (rho : env) : Prop :=
  well_typed rho /\ (forall v, In v (fvF f) -> dom0 (vty v) (rho v)) /\ regular M D f rho /\ holds M f rho.
(** The problem with exactly the variables [vs], their default domains, and the assertions [fs]. *)
Definition poses (p : problem) (vs : list var) (fs : list formula) : Prop :=
  (forall v d, In (v, d) (p_doms p) <-> In v vs /\ d = dom0 (vty v)) /\ p_asserts p = fs.
