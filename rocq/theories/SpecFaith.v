(** * What the assertions of a history say about optimization (C28)

    The points that Minimize and Maximize range over, in terms of the calls made: no box, no stack. *)
From Coq Require Import ZArith Reals List Bool.
From Verif Require Import Dbl Syntax Sem IEval Interval Filter Context SpecCtx SmtOcc SpecIte.
Import ListNotations.
Local Open Scope R_scope.

(** The problem in force after a history. *)
Definition current (ops : list cop) : problem := fst (fold_left (fun st o => p_step o st) ops (p_empty, [])).
(** A typed point of the domains at which every assertion holds. *)
Definition satisfying (M : interp) (p : problem) (rho : env) : Prop :=
  well_typed rho /\ (forall v d, In (v, d) (p_doms p) -> d (rho v)) /\ forall f, In f (p_asserts p) -> holds M f rho.
(** No such point is strictly smaller in every objective. *)
Definition optimal (M : interp) (p : problem) (fs : list expr) (rho : env) : Prop :=
  ~ exists rho', satisfying M p rho' /\ forall f, In f fs -> evalE M f rho' < evalE M f rho.
(** An assertion that is not a strict bound of a real variable by a literal, nor a bound by an interval literal. *)
Definition exact_bound (f : formula) : Prop :=
  forall o v cs, bound_lit f = Some (o, v, cs) -> cs = [] \/ ((exists c, cs = [c]) /\ (strict_lit f true = true -> vty v <> CONTINUOUS)).
Definition exact_op (o : cop) : Prop := match o with OAssert f => exact_bound f | _ => True end.
(** Assertions and objectives are about the declared variables, whose identifiers differ; Boolean variables are used as
    formulas and the others as terms; no uninterpreted function has arguments; everything is defined in the domains. *)
Definition posed_problem (M : interp) (D : pdom) (p : problem) (fs : list expr) : Prop :=
  (forall v w, declared p v -> declared p w -> vid v = vid w -> v = w) /\
  (forall f, In f (p_asserts p) -> occF (fun _ => False) (declared p) f) /\
  (forall f, In f fs -> occE (fun _ => False) (declared p) f) /\
  (forall rho, well_typed rho -> (forall v d, In (v, d) (p_doms p) -> d (rho v)) ->
     (forall f, In f (p_asserts p) -> defF M D f rho) /\ forall f, In f fs -> defE M D f rho).
(** ** Minimize(g, f) of the library (C44) *)
(** A typed point in the default domains at which [f] holds; [vs]: the variables of [f] and of the objective. *)
Definition api_point (M : interp) (vs : list var) (f : formula) (rho : env) : Prop :=
  well_typed rho /\ (forall v, In v vs -> dom0 (vty v) (rho v)) /\ holds M f rho.
(** Boolean variables are used as formulas and the others as terms, no uninterpreted function has arguments, and everything is defined. *)
Definition api_posed (M : interp) (D : pdom) (g : expr) (f : formula) : Prop :=
  occF (fun _ => False) (fun _ => True) f /\ occE (fun _ => False) (fun _ => True) g /\
  forall rho, well_typed rho -> (forall v, In v (fvF f ++ fvE g) -> dom0 (vty v) (rho v)) -> defF M D f rho /\ defE M D g rho.
