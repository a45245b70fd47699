(** * Specification: what a .dr problem means

    Directly on the syntax tree, over the reals; [V] gives the values of the names. *)
From Coq Require Import ZArith Reals List Bool.
From Flocq Require Import IEEE754.BinarySingleNaN.
From Verif Require Import Dbl Syntax Sem IEval Context SpecCtx Dr.
Import ListNotations.
Local Open Scope R_scope.

Section Spec.
  Variables (M : interp) (D : pdom) (V : nat -> R).
  Fixpoint dval (e : dexp) : R :=
    match e with
    | DNum d => B2R d
    | DId x => V x
    | DAdd a b => dval a + dval b
    | DSub a b => dval a - dval b
    | DMul a b => dval a * dval b
    | DNeg a => - dval a
    | DUn o a => i_un M o (dval a)
    | DBin o a b => i_bin M o (dval a) (dval b)
    end.
  (** every function is applied inside its domain *)
  Fixpoint ddef (e : dexp) : Prop :=
    match e with
    | DNum d => is_finite d = true
    | DId _ => True
    | DAdd a b | DSub a b | DMul a b => ddef a /\ ddef b
    | DNeg a => ddef a
    | DUn o a => ddef a /\ d_un D o (dval a)
    | DBin o a b => ddef a /\ ddef b /\ d_bin D o (dval a) (dval b)
    end.
  Definition drelR (o : drel) (x y : R) : Prop := match o with DEq => x = y | DLt => x < y | DLe => x <= y | DGt => x > y | DGe => x >= y end.
  Fixpoint dtrue (f : dform) : Prop :=
    match f with
    | DRel o a b => drelR o (dval a) (dval b)
    | DAnd f g => dtrue f /\ dtrue g
    | DOr f g => dtrue f \/ dtrue g
    | DImp f g => dtrue f -> dtrue g
    | DNot f => ~ dtrue f
    end.
  Fixpoint fdef (f : dform) : Prop :=
    match f with
    | DRel _ a b => ddef a /\ ddef b
    | DAnd f g | DOr f g | DImp f g => fdef f /\ fdef g
    | DNot f => fdef f
    end.
End Spec.

(** The i-th declared variable of a file, and the points of the solver at which the names have the values [V]. *)
Definition dvar (nx i : nat) : var := mkVar (nx + i) CONTINUOUS.
Definition dr_reads (ds : list ddecl) (nx : nat) (V : nat -> R) (rho : env) : Prop :=
  forall i d, nth_error ds i = Some d -> rho (dvar nx i) = V (dd_name d).
Definition dr_ub (d : ddecl) : dexp := match dd_ub d with Some e => e | None => dd_lb d end.

(** [bs]: the bounds of the declarations.  [l] is the value Evaluate() returns for an expression with the meaning of
    the bound written in the file. *)
Definition bound_is (M : interp) (D : pdom) (evl : expr -> option dbl) (ds : list ddecl) (nx : nat) (e : dexp) (l : dbl) : Prop :=
  is_nan l = false /\ exists p, evl p = Some l /\
    forall V rho, dr_reads ds nx V rho -> ddef M D V e -> defE M D p rho /\ evalE M p rho = dval M V e.
Definition means_exp (M : interp) (D : pdom) (ds : list ddecl) (nx : nat) (e : dexp) (p : expr) : Prop :=
  forall V rho, dr_reads ds nx V rho -> ddef M D V e -> defE M D p rho /\ evalE M p rho = dval M V e.
Definition means_form (M : interp) (D : pdom) (ds : list ddecl) (nx : nat) (f : dform) (g : formula) : Prop :=
  forall V rho, dr_reads ds nx V rho -> fdef M D V f -> defF M D g rho /\ (holds M g rho <-> dtrue M V f).
(** The declarations of the file, one after the other. *)
Fixpoint decl_ops (bs : list (dbl * dbl)) (nx : nat) : list cop :=
  match bs with
  | [] => []
  | (l, u) :: r => ONew (mkVar nx CONTINUOUS) :: ODeclareDom (mkVar nx CONTINUOUS) l u true :: decl_ops r (S nx)
  end.
(** A solution of a problem without cost: inside the bounds, all constraints defined and true. *)
Definition dr_solution (M : interp) (D : pdom) (d : dfile) (bs : list (dbl * dbl)) (V : nat -> R) : Prop :=
  Forall2 (fun dd b => between (fst b) (snd b) (V (dd_name dd))) (dr_vars d) bs /\
  forall f, In f (dr_ctr d) -> fdef M D V f /\ dtrue M V f.
