(** * What an optimization problem asks for *)
From Coq Require Import Reals List.
From Verif Require Import Dbl Syntax Sem IEval Interval SpecAlg SpecIte SmtOcc.
Import ListNotations.
Local Open Scope R_scope.

(** A point of the domain at which every constraint holds. *)
Definition feasible (M : interp) (b : box) (cs : list formula) (rho : env) : Prop :=
  well_typed rho /\ in_box rho b /\ forall f, In f cs -> holds M f rho.
(** No feasible point is strictly smaller in every objective. *)
Definition undominated (M : interp) (b : box) (cs : list formula) (fs : list expr) (rho : env) : Prop :=
  ~ exists rho', feasible M b cs rho' /\ forall f, In f fs -> evalE M f rho' < evalE M f rho.

(** The formulas and objectives are about the variables of the box; identifiers are below the counter [nx]; Boolean
    variables are used as formulas and the others as terms, and no uninterpreted function has arguments ([occE],
    [occF] of SmtOcc.v); everything is defined in the domain. *)
Definition posed (M : interp) (D : pdom) (b : box) (cs : list formula) (fs : list expr) (nx : nat) : Prop :=
  box_ok b /\ bnd nx (bvars b) /\ (forall v w, In v (bvars b) -> In w (bvars b) -> vid v = vid w -> v = w) /\
  (forall f, In f cs -> occF (fun v => (vid v < nx)%nat) (fun v => In v (bvars b)) f) /\
  (forall f, In f fs -> occE (fun v => (vid v < nx)%nat) (fun v => In v (bvars b)) f) /\
  (forall rho, well_typed rho -> in_box rho b ->
     (forall f, In f cs -> defF M D f rho) /\ forall f, In f fs -> defE M D f rho).
