(** * Interval evaluation of expressions and three-valued evaluation of theory literals

    Models solver/expression_evaluator.cc, solver/relational_formula_evaluator.cc and
    solver/formula_evaluator_cell.cc.  The interval operations themselves belong to IBEX: they are a
    record of arbitrary functions, and the theorems assume only that they enclose the real
    operations ([ia_ok]). *)
From Coq Require Import ZArith Reals List Bool.
From Flocq Require Import IEEE754.BinarySingleNaN.
From Verif Require Import Dbl Syntax Sem Interval MathConv.
Import ListNotations.

(** ** Specification: where a term is defined *)
Record pdom := { d_un : unop -> R -> Prop; d_bin : binop -> R -> R -> Prop }.

Section Def.
  Variables (M : interp) (D : pdom).
  Fixpoint defE (e : expr) (rho : env) {struct e} : Prop :=
    match e with
    | EConst _ | EReal _ _ _ | EVar _ | EUf _ _ => True
    | EAdd _ ts => fold_right (fun p acc => match p with (a, _) => defE a rho /\ acc end) True ts
    | EMul _ ts =>
        fold_right (fun p acc => match p with (a, b) =>
          (defE a rho /\ defE b rho /\ d_bin D BPow (evalE M a rho) (evalE M b rho)) /\ acc end) True ts
    | EUn o a => defE a rho /\ d_un D o (evalE M a rho)
    | EBin o a b => defE a rho /\ defE b rho /\ d_bin D o (evalE M a rho) (evalE M b rho)
    | EIte f a b => defF f rho /\ defE a rho /\ defE b rho
    end
  with defF (f : formula) (rho : env) {struct f} : Prop :=
    match f with
    | FTrue | FFalse | FVar _ => True
    | FRel _ a b => defE a rho /\ defE b rho
    | FAnd fs => fold_right (fun g acc => defF g rho /\ acc) True fs
    | FOr fs => fold_right (fun g acc => defF g rho /\ acc) True fs
    | FNot g => defF g rho
    | FForall vs g =>
        forall rho', agree_off vs rho rho' ->
                     (forall v, In v vs -> typed_val (vty v) (rho' v)) -> defF g rho'
    end.

  (** A solution of [f]: every term is defined and the formula is true. *)
  Definition solves (f : formula) (rho : env) : Prop := defF f rho /\ holds M f rho.
End Def.

(** Numeric literals the symbolic layer can hold: finite constants, ordered enclosures. *)
Fixpoint finE (e : expr) : Prop :=
  match e with
  | EConst c => is_finite c = true
  | EReal lb ub _ => dle lb ub = true /\ is_finite lb = true /\ is_finite ub = true
  | EVar _ | EUf _ _ => True
  | EAdd c ts => is_finite c = true /\
      fold_right (fun p acc => match p with (a, k) => (finE a /\ is_finite k = true) /\ acc end) True ts
  | EMul c ts => is_finite c = true /\
      fold_right (fun p acc => match p with (a, b) => (finE a /\ finE b) /\ acc end) True ts
  | EUn _ a => finE a
  | EBin _ a b => finE a /\ finE b
  | EIte _ a b => finE a /\ finE b
  end.

(** ** The interval library's operations *)
Record iarith := {
  ia_add : ival -> ival -> ival;          (* operator+(Interval, Interval) *)
  ia_mul : ival -> ival -> ival;          (* operator*(Interval, Interval) *)
  ia_scale : ival -> dbl -> ival;         (* operator*(Interval, double) *)
  ia_div : ival -> ival -> ival;
  ia_un : unop -> ival -> ival;           (* log, abs, exp, sqrt, sin, ... *)
  ia_sqr : ival -> ival;
  ia_powi : ival -> Z -> ival;            (* pow(Interval, int) *)
  ia_powd : ival -> dbl -> ival;          (* pow(Interval, double) *)
  ia_powI : ival -> ival -> ival;         (* pow(Interval, Interval) *)
  ia_atan2 : ival -> ival -> ival;
  ia_min : ival -> ival -> ival;
  ia_max : ival -> ival -> ival
}.

(** The enclosure assumption. *)
Record ia_ok (M : interp) (D : pdom) (A : iarith) : Prop := {
  ok_add : forall x y I J, imem x I -> imem y J -> imem (x + y) (ia_add A I J);
  ok_mul : forall x y I J, imem x I -> imem y J -> imem (x * y) (ia_mul A I J);
  ok_scale : forall x I c, is_finite c = true -> imem x I -> imem (B2R c * x) (ia_scale A I c);
  ok_div : forall x y I J, d_bin D BDiv x y -> imem x I -> imem y J -> imem (i_bin M BDiv x y) (ia_div A I J);
  ok_un : forall o x I, d_un D o x -> imem x I -> imem (i_un M o x) (ia_un A o I);
  ok_sqr : forall x I, d_bin D BPow x 2 -> imem x I -> imem (i_bin M BPow x 2) (ia_sqr A I);
  ok_powi : forall x z I, d_bin D BPow x (IZR z) -> imem x I -> imem (i_bin M BPow x (IZR z)) (ia_powi A I z);
  ok_powd : forall x c I, is_finite c = true -> d_bin D BPow x (B2R c) -> imem x I ->
              imem (i_bin M BPow x (B2R c)) (ia_powd A I c);
  ok_powI : forall x y I J, d_bin D BPow x y -> imem x I -> imem y J -> imem (i_bin M BPow x y) (ia_powI A I J);
  ok_atan2 : forall x y I J, d_bin D BAtan2 x y -> imem x I -> imem y J -> imem (i_bin M BAtan2 x y) (ia_atan2 A I J);
  ok_min : forall x y I J, d_bin D BMin x y -> imem x I -> imem y J -> imem (i_bin M BMin x y) (ia_min A I J);
  ok_max : forall x y I J, d_bin D BMax x y -> imem x I -> imem y J -> imem (i_bin M BMax x y) (ia_max A I J);
  ok_shape : forall I J c z o, i_ok I -> i_ok J ->
     i_ok (ia_add A I J) /\ i_ok (ia_mul A I J) /\ i_ok (ia_scale A I c) /\ i_ok (ia_div A I J) /\ i_ok (ia_un A o I) /\
     i_ok (ia_sqr A I) /\ i_ok (ia_powi A I z) /\ i_ok (ia_powd A I c) /\ i_ok (ia_powI A I J) /\ i_ok (ia_atan2 A I J) /\
     i_ok (ia_min A I J) /\ i_ok (ia_max A I J)
}.

(** Option monad: [None] is a thrown exception. *)
Definition bind {A B} (x : option A) (k : A -> option B) : option B := match x with Some a => k a | None => None end.

Section Eval.
  Variable A : iarith.

  (** ExpressionEvaluator::VisitPow, expression_evaluator.cc:117-138.
      [is_degenerated() && !is_empty()] is lb == ub; the cast to int is exact because is_integer
      held. *)
  Definition pow_eval (first second : ival) : ival :=
    match second with
    | IV l u =>
        if deq l u then
          if is_integer l then (if deq l (dZ 2) then ia_sqr A first else ia_powi A first (Btrunc l))
          else ia_powd A first l
        else ia_powI A first second
    | IEmpty => ia_powI A first second
    end.

  (** ExpressionEvaluator::Visit..., expression_evaluator.cc:38-211 *)
  Fixpoint evalI (e : expr) (b : box) {struct e} : option ival :=
    match e with
    | EVar v => Some (b_getv b v)                                              (* 43-47 *)
    | EConst c => Some (i_point c)                                             (* 49-53 *)
    | EReal l u _ => Some (mk_ival l u)                                        (* 55-60 *)
    | EAdd c ts =>                                                             (* 62-72 *)
        fold_left (fun init p => match p with (a, k) =>
          bind init (fun i => bind (evalI a b) (fun x => Some (ia_add A i (ia_scale A x k)))) end) ts (Some (i_point c))
    | EMul c ts =>                                                             (* 74-85 *)
        fold_left (fun init p => match p with (a, x) =>
          bind init (fun i => bind (evalI a b) (fun va => bind (evalI x b) (fun vx =>
            Some (ia_mul A i (pow_eval va vx))))) end) ts (Some (i_point c))
    | EUn o a => bind (evalI a b) (fun x => Some (ia_un A o x))                (* 92-110, 140-168, 176-189 *)
    | EBin o a1 a2 =>
        bind (evalI a1 b) (fun x => bind (evalI a2 b) (fun y =>
          Some (match o with
                | BDiv => ia_div A x y                                         (* 87-90 *)
                | BPow => pow_eval x y                                         (* 112-115 *)
                | BAtan2 => ia_atan2 A x y                                     (* 170-174 *)
                | BMin => ia_min A x y                                         (* 191-195 *)
                | BMax => ia_max A x y                                         (* 197-201 *)
                end)))
    | EIte _ _ _ => None                                                       (* 203-206 throws *)
    | EUf _ _ => None                                                          (* 208-211 throws *)
    end.

  (** ** RelationalFormulaEvaluator *)
  Inductive etype := VALID | UNSAT | UNKNOWN.

  (** operator!(RelationalOperator), symbolic.cc / relational_operator; the complement. *)
  Definition relop_neg (o : relop) : relop :=
    match o with REq => RNeq | RNeq => REq | RGt => RLeq | RGeq => RLt | RLt => RGeq | RLeq => RGt end.

  (** GetRelationalOperator, relational_formula_evaluator.cc:29-67; [None]: DREAL_UNREACHABLE throws. *)
  Fixpoint lit_op (f : formula) : option relop :=
    match f with
    | FRel o _ _ => Some o
    | FNot g => option_map relop_neg (lit_op g)
    | _ => None
    end.
  (** ExtractExpression, 70-77: the two sides whose difference is taken. *)
  Fixpoint lit_sides (f : formula) : option (expr * expr) :=
    match f with
    | FRel _ a b => Some (a, b)
    | FNot g => lit_sides g
    | _ => None
    end.

  (** The case analysis of operator(), 89-196, on the enclosure of e1 - e2. *)
  Definition rel_dec (o : relop) (i : ival) : etype :=
    let z := dzero in
    match o with
    | REq => if deq (ilb i) z && deq (iub i) z then VALID else if negb (i_contains i z) then UNSAT else UNKNOWN
    | RNeq => if dlt (iub i) z || dgt (ilb i) z then VALID else if deq (iub i) z && deq (ilb i) z then UNSAT else UNKNOWN
    | RGt => if dgt (ilb i) z then VALID else if dle (iub i) z then UNSAT else UNKNOWN
    | RGeq => if dge (ilb i) z then VALID else if dlt (iub i) z then UNSAT else UNKNOWN
    | RLt => if dlt (iub i) z then VALID else if dge (ilb i) z then UNSAT else UNKNOWN
    | RLeq => if dle (iub i) z then VALID else if dgt (ilb i) z then UNSAT else UNKNOWN
    end.

  (** Expression operator-(e1, e2) (symbolic_expression.cc:376-409) is a parameter here; its own
      model is ExprAlg.v. *)
  Variable esub : expr -> expr -> expr.

  (** RelationalFormulaEvaluator constructed from [f] and applied to a box. *)
  Definition rel_eval (f : formula) (b : box) : option (etype * ival) :=
    bind (lit_op f) (fun o => bind (lit_sides f) (fun p =>
      bind (evalI (esub (fst p) (snd p)) b) (fun i => Some (rel_dec o i, i)))).
End Eval.

(** formula_evaluator_cell.cc:23-34 *)
Fixpoint is_simple_relational (f : formula) : bool :=
  match f with
  | FNot g => is_simple_relational g
  | FRel _ l r =>
      match l, r with
      | EConst _, EVar _ | EReal _ _ _, EVar _ | EVar _, EConst _ | EVar _, EReal _ _ _ => true
      | _, _ => false
      end
  | _ => false
  end.
(** formula_evaluator_cell.cc:36-44 *)
Fixpoint is_neq_pol (f : formula) (pol : bool) : bool :=
  match f with
  | FNot g => is_neq_pol g (negb pol)
  | FRel o _ _ => match o with RNeq => pol | REq => negb pol | _ => false end
  | _ => false
  end.

(** What is assumed of the symbolic subtraction used by the evaluator: it denotes the difference
    wherever both sides are defined, and contains only finite literals and the sides' variables. *)
Definition esub_faithful (M : interp) (D : pdom) (esub : expr -> expr -> expr) (a b : expr) : Prop :=
  finE (esub a b) /\ (forall v, In v (fvE (esub a b)) -> In v (fvE a ++ fvE b)) /\
  forall rho, defE M D a rho -> defE M D b rho ->
    defE M D (esub a b) rho /\ evalE M (esub a b) rho = (evalE M a rho - evalE M b rho)%R.

(** ** Specification: the delta-weakening of a formula
    Every comparison may be violated by at most [delta]. *)
Definition weakR (delta : R) (o : relop) (a b : R) : Prop :=
  match o with
  | REq => (Rabs (a - b) <= delta)%R
  | RNeq => True
  | RGt => (a - b > - delta)%R
  | RGeq => (a - b >= - delta)%R
  | RLt => (a - b < delta)%R
  | RLeq => (a - b <= delta)%R
  end.
Section Weak.
  Variable M : interp.
  Variable delta : R.
  Fixpoint weak (pol : bool) (f : formula) (rho : env) {struct f} : Prop :=
    match f with
    | FTrue => pol = true
    | FFalse => pol = false
    | FVar v => if pol then rho v = 1%R else rho v <> 1%R
    | FRel o a b => weakR delta (if pol then o else relop_neg o) (evalE M a rho) (evalE M b rho)
    | FAnd fs => if pol then fold_right (fun g acc => weak true g rho /\ acc) True fs
                 else fold_right (fun g acc => weak false g rho \/ acc) False fs
    | FOr fs => if pol then fold_right (fun g acc => weak true g rho \/ acc) False fs
                else fold_right (fun g acc => weak false g rho /\ acc) True fs
    | FNot g => weak (negb pol) g rho
    | FForall vs g =>
        if pol then forall rho', agree_off vs rho rho' -> (forall v, In v vs -> typed_val (vty v) (rho' v)) -> weak true g rho'
        else exists rho', agree_off vs rho rho' /\ (forall v, In v vs -> typed_val (vty v) (rho' v)) /\ weak false g rho'
    end.
End Weak.
