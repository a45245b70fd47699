(** * Specification: the minima of a .dr problem (C46) *)
From Coq Require Import ZArith Reals List Bool.
From Flocq Require Import IEEE754.BinarySingleNaN.
From Verif Require Import Dbl Syntax Sem FormulaCons Interval IEval Filter ExprAlg Dr Theory SpecCtx SpecFaith SpecDr.
Import ListNotations.
Local Open Scope R_scope.

(** Every literal of the file is a number: what std::stod returns for a decimal. *)
Fixpoint exp_lits (e : dexp) : Prop :=
  match e with
  | DNum d => is_finite d = true
  | DId _ => True
  | DAdd a b | DSub a b | DMul a b | DBin _ a b => exp_lits a /\ exp_lits b
  | DNeg a | DUn _ a => exp_lits a
  end.
Fixpoint form_lits (f : dform) : Prop :=
  match f with
  | DRel _ a b => exp_lits a /\ exp_lits b
  | DAnd f g | DOr f g | DImp f g => form_lits f /\ form_lits g
  | DNot f => form_lits f
  end.
Definition dr_lits (d : dfile) : Prop := (forall f, In f (dr_ctr d) -> form_lits f) /\ forall g, In g (dr_cost d) -> exp_lits g.
(** [fold] decides a comparison only if the difference of its sides is a number (symbolic_formula.cc:469-559). *)
Definition folds (fpow : dbl -> dbl -> dbl) (n : nat) (fold : expr -> expr -> option dbl) : Prop :=
  forall a b c, fold a b = Some c -> exists t, mk_sub fpow n a b = (Val (EConst c), t) /\ is_nan c = false.
Definition in_bounds (d : dfile) (bs : list (dbl * dbl)) (V : nat -> R) : Prop :=
  Forall2 (fun dd b => between (fst b) (snd b) (V (dd_name dd))) (dr_vars d) bs.
(** Constraints and costs are defined within the bounds. *)
Definition dr_total (M : interp) (D : pdom) (d : dfile) (bs : list (dbl * dbl)) : Prop :=
  forall V, in_bounds d bs V -> (forall f, In f (dr_ctr d) -> fdef M D V f) /\ forall g, In g (dr_cost d) -> ddef M D V g.
(** A solution that no solution beats in every cost. *)
Definition dr_minimum (M : interp) (D : pdom) (d : dfile) (bs : list (dbl * dbl)) (V : nat -> R) : Prop :=
  dr_solution M D d bs V /\ ~ exists V', dr_solution M D d bs V' /\ forall g, In g (dr_cost d) -> dval M V' g < dval M V g.

(** The delta-weakening of a constraint of the file; [pol = false]: of its negation.  Comparisons may be excused by [exc]. *)
Section Weak.
  Variables (M : interp) (V : nat -> R) (delta : R) (exc : dexp -> dexp -> Prop).
  Fixpoint dweak (pol : bool) (f : dform) : Prop :=
    match f with
    | DRel o a b => weakR delta (if pol then drel_op o else relop_neg (drel_op o)) (dval M V a) (dval M V b) \/ exc a b
    | DAnd f g => if pol then dweak true f /\ dweak true g else dweak false f \/ dweak false g
    | DOr f g => if pol then dweak true f \/ dweak true g else dweak false f /\ dweak false g
    | DImp f g => if pol then dweak false f \/ dweak true g else dweak true f /\ dweak false g
    | DNot f => dweak (negb pol) f
    end.
End Weak.
(** A comparison of the file is excused if [exc] excuses the comparison of the expressions built for its sides when all variables are declared. *)
Definition excused (fpow : dbl -> dbl -> dbl) (n : nat) (evl : expr -> option dbl) (exc : expr -> expr -> env -> Prop) (ds : list ddecl) (nx : nat) (rho : env) (a b : dexp) : Prop :=
  exists r t x tx y ty, dr_decls fpow n evl ds [] nx = (Val r, t) /\ dr_exp fpow n (fst r) a = (Val x, tx) /\ dr_exp fpow n (fst r) b = (Val y, ty) /\ exc x y rho.
