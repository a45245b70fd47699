(** * Expression constructors with simplification

    Models third_party/.../symbolic/symbolic_expression.cc:49-90 (negation), 130-145 (constants),
    330-374 (+=), 411-427 (unary -), 480-615 ( *= ), 623-649 (/=), 682-811 (functions) and the two
    factories of symbolic_expression_cell.cc:666-770 and 953-1081.

    - The three kinds of ending are kept apart: a value, a C++ exception, undefined behaviour.
    - [add] and [mul] call each other; they carry fuel, and running out of fuel is a fourth ending.
    - The list of [step]s is not in the program: it records, for the statements only, every place
      where the code assumes something about numbers (a constant computed in floating point, a map key
      found by comparison, a decimal literal replaced by a double, two exponents multiplied).
    - The libm function std::pow is the parameter [fpow].
    Simplifications: reference counts and moves are dropped (the rvalue overloads, 305-328 and 459-477,
    only swap the operands); the cell for NaN is the constant NaN; asserts are compiled out; [EqualTo] is
    [expr_eqb]. *)
From Coq Require Import ZArith List Bool.
From Flocq Require Import IEEE754.BinarySingleNaN.
From Verif Require Import Dbl Syntax FormulaCons MathConv Order.
Import ListNotations.

Inductive step :=
| SAdd (a b : dbl)                          (* a + b computed as a double *)
| SMul (a b : dbl)
| SDiv (a b : dbl)
| SPow (a b r : dbl)                        (* r = std::pow(a, b) *)
| SMinMax (a b : dbl)                       (* std::min / std::max of two constants *)
| SKey (k k' : expr)                        (* the map found entry k' when looking for k *)
| SLit (lb ub : dbl) (use_lb : bool)        (* a decimal literal stands for its representative *)
| SPowPow (e : dbl)                         (* (b^m)^e became b^(m*e), m an integer *)
| SCmp (c : dbl).                           (* a comparison was decided by comparing the constant c with 0 *)

Inductive out (A : Type) := Val (a : A) | Throw | Ub | Fuel.
Arguments Val {A} a.
Arguments Throw {A}.
Arguments Ub {A}.
Arguments Fuel {A}.

Definition comp (A : Type) : Type := (out A * list step)%type.
Definition ret {A} (a : A) : comp A := (Val a, []).
Definition tell (s : step) : comp unit := (Val tt, [s]).
Definition bind {A B} (x : comp A) (f : A -> comp B) : comp B :=
  match x with
  | (Val a, t) => let (r, u) := f a in (r, t ++ u)
  | (Throw, t) => (Throw, t)
  | (Ub, t) => (Ub, t)
  | (Fuel, t) => (Fuel, t)
  end.
Declare Scope comp_scope.
Notation "x <- a ;; b" := (bind a (fun x => b)) (at level 61, a at next level, right associativity) : comp_scope.
Notation "a ;;; b" := (bind a (fun _ => b)) (at level 61, right associativity) : comp_scope.
Local Open Scope comp_scope.

Definition done : dbl := dZ 1.
Definition dtwo : dbl := dZ 2.
Definition dnone : dbl := dZ (-1).

(** Expression::Expression(double) / make_cell, symbolic_expression.cc:130-145: -0.0 becomes 0.0. *)
Definition mk_const (d : dbl) : expr := EConst (if deq d dzero then dzero else d).

Definition is_const (e : expr) : bool := match e with EConst _ => true | _ => false end.
(** is_constant(e, v), symbolic_expression.cc:819-827 *)
Definition is_c (e : expr) (v : dbl) : bool := match e with EConst c => deq c v | _ => false end.
Definition is_variable (e : expr) : bool := match e with EVar _ => true | _ => false end.

Definition fadd (a b : dbl) : comp dbl := (Val (dadd a b), [SAdd a b]).
Definition fmul (a b : dbl) : comp dbl := (Val (dmul a b), [SMul a b]).
Definition fdiv (a b : dbl) : comp dbl := (Val (ddiv a b), [SDiv a b]).

(** ** Operand maps *)

(** ExpressionAddFactory::AddTerm, symbolic_expression_cell.cc:741-762 *)
Fixpoint add_term (coeff : dbl) (term : expr) (m : list (expr * dbl)) : comp (list (expr * dbl)) :=
  match m with
  | [] => ret [(term, coeff)]
  | (k, c) :: m' =>
      match cmpE term k with
      | Lt => ret ((term, coeff) :: m)
      | Eq => tell (SKey term k) ;;; s <- fadd c coeff ;;
              ret (if deq s dzero then m' else (k, s) :: m')
      | Gt => m'' <- add_term coeff term m' ;; ret ((k, c) :: m'')
      end
  end.
(** AddMap, 764-770 *)
Fixpoint add_map (ts : list (expr * dbl)) (m : list (expr * dbl)) : comp (list (expr * dbl)) :=
  match ts with
  | [] => ret m
  | (t, c) :: ts' => m' <- add_term c t m ;; add_map ts' m'
  end.

Section Ops.
  Variable fpow : dbl -> dbl -> dbl.

  (** ExpressionPow::check_domain, symbolic_expression_cell.cc:1455-1464 *)
  Definition pow_domain (v1 v2 : dbl) : bool :=
    negb (is_finite v1 && dlt v1 dzero && is_finite v2 && negb (is_integer v2)).

  (** new ExpressionPow(base, v1 * v2), symbolic_expression.cc:730-737 *)
  Definition pow_pow (e1 e2 base : expr) (v1 v2 : dbl) : comp expr :=
    if is_integer v1 && is_integer v2
    then v <- fmul v1 v2 ;; ret (EBin BPow base (mk_const v))
    else ret (EBin BPow e1 e2).

  (** pow, symbolic_expression.cc:706-740.  Line 731 reads the exponent of the inner power as a constant
      without checking that it is one (get_constant_value, 855-858, casts the cell): undefined behaviour
      for any other kind of exponent. *)
  Definition mk_pow (e1 e2 : expr) : comp expr :=
    match e2 with
    | EConst v2 =>
        match e1 with
        | EConst v1 =>
            if pow_domain v1 v2
            then (Val (mk_const (fpow v1 v2)), [SPow v1 v2 (fpow v1 v2)])
            else (Throw, [])
        | _ =>
            if deq v2 dzero then ret (EConst done)
            else if deq v2 done then ret e1
            else match e1 with
                 | EBin BPow base (EConst v1) => pow_pow e1 e2 base v1 v2
                 | EBin BPow base (EReal lb ub u) => tell (SLit lb ub u) ;;; pow_pow e1 e2 base (rep lb ub u) v2
                 | EBin BPow _ _ => (Ub, [])
                 | _ => ret (EBin BPow e1 e2)
                 end
        end
    | _ => ret (EBin BPow e1 e2)
    end.

  (** operator/=, symbolic_expression.cc:623-649 *)
  Definition mk_div (lhs rhs : expr) : comp expr :=
    if is_c rhs done then ret lhs
    else match lhs, rhs with
         | EConst v1, EConst v2 =>
             if deq v2 dzero then (Throw, []) else v <- fdiv v1 v2 ;; ret (mk_const v)
         | _, _ => if expr_eqb lhs rhs then ret (EConst done) else ret (EBin BDiv lhs rhs)
         end.

  (** ExpressionMulFactory::GetExpression, symbolic_expression_cell.cc:1006-1027 *)
  Definition mul_get (c : dbl) (m : list (expr * expr)) : comp expr :=
    if deq c dzero then ret (EConst dzero)
    else match m with
         | [] => ret (mk_const c)
         | [(b, e)] => if deq c done then mk_pow b e else ret (EMul c m)
         | _ => ret (EMul c m)
         end.

  (** ExpressionAddFactory::AddExpression, 673-694 (Add 696-700, AddConstant 736-739) *)
  Definition add_expr (e : expr) (f : dbl * list (expr * dbl)) : comp (dbl * list (expr * dbl)) :=
    let '(c, m) := f in
    match e with
    | EConst v => c' <- fadd c v ;; ret (c', m)
    | EAdd c0 ts => c' <- fadd c c0 ;; m' <- add_map ts m ;; ret (c', m')
    | EMul k ts =>
        if deq k done then m' <- add_term done e m ;; ret (c, m')
        else t <- mul_get done ts ;; m' <- add_term k t m ;; ret (c, m')
    | _ => m' <- add_term done e m ;; ret (c, m')
    end.

  Section Rec.
    (** the recursive calls of += and *= *)
    Variables (radd rmul : expr -> expr -> comp expr).

    (** ExpressionAddFactory::GetExpression, 717-734 *)
    Definition add_get (f : dbl * list (expr * dbl)) : comp expr :=
      let '(c, m) := f in
      match m with
      | [] => ret (mk_const c)
      | [(t, k)] => if deq c dzero then rmul t (mk_const k) else ret (EAdd c m)
      | _ => ret (EAdd c m)
      end.

    (** NegateAddition, symbolic_expression.cc:49-69; Negate, cell.cc:709-715 *)
    Definition neg_add (c : dbl) (ts : list (expr * dbl)) : comp expr :=
      add_get (dopp c, map (fun p => (fst p, dopp (snd p))) ts).
    (** NegateMultiplication, symbolic_expression.cc:71-93; Negate, cell.cc:1001-1004 *)
    Definition neg_mul (c : dbl) (ts : list (expr * expr)) : comp expr := mul_get (dopp c) ts.

    (** operator+=, symbolic_expression.cc:330-374 *)
    Definition add_body (lhs rhs : expr) : comp expr :=
      if is_c lhs dzero then ret rhs
      else if is_c rhs dzero then ret lhs
      else match lhs, rhs with
           | EConst a, EConst b => v <- fadd a b ;; ret (mk_const v)
           | EAdd c ts, _ => f <- add_expr rhs (c, ts) ;; add_get f
           | _, EAdd c ts => f <- add_expr lhs (c, ts) ;; add_get f
           | _, _ => f <- add_expr lhs (dzero, []) ;; g <- add_expr rhs f ;; add_get g
           end.

    (** The lookup part of ExpressionMulFactory::AddTerm, symbolic_expression_cell.cc:1054-1072 *)
    Fixpoint mul_term (base exponent : expr) (m : list (expr * expr)) : comp (list (expr * expr)) :=
      match m with
      | [] => ret [(base, exponent)]
      | (b, e) :: m' =>
          match cmpE base b with
          | Lt => ret ((base, exponent) :: m)
          | Eq => tell (SKey base b) ;;; s <- radd e exponent ;;
                  ret (if is_c s dzero then m' else (b, s) :: m')
          | Gt => m'' <- mul_term base exponent m' ;; ret ((b, e) :: m'')
          end
      end.
    (** ExpressionMulFactory::AddTerm, 1034-1072: (e1^e2)^exponent with an integer e2 becomes
        e1^(e2 * exponent) *)
    Fixpoint mul_add_term (base exponent : expr) (m : list (expr * expr)) {struct base} : comp (list (expr * expr)) :=
      match base, exponent with
      | EBin BPow e1 (EConst v), EConst w =>
          if is_integer v
          then tell (SPowPow w) ;;; x <- rmul (EConst v) exponent ;; mul_add_term e1 x m
          else mul_term base exponent m
      | _, _ => mul_term base exponent m
      end.
    (** AddMap, 1075-1081 *)
    Fixpoint mul_map (ts : list (expr * expr)) (m : list (expr * expr)) : comp (list (expr * expr)) :=
      match ts with
      | [] => ret m
      | (b, e) :: ts' => m' <- mul_add_term b e m ;; mul_map ts' m'
      end.
    (** ExpressionMulFactory::AddExpression, 962-983 (Add 985-992, AddConstant 1029-1032) *)
    Definition mul_expr (e : expr) (f : dbl * list (expr * expr)) : comp (dbl * list (expr * expr)) :=
      let '(c, m) := f in
      if deq c dzero then ret f
      else if is_c e dzero then ret (dzero, [])
      else match e with
           | EConst v => c' <- fmul c v ;; ret (c', m)
           | EMul k ts => c' <- fmul c k ;; m' <- mul_map ts m ;; ret (c', m')
           | EBin BPow b x => m' <- mul_add_term b x m ;; ret (c, m')
           | _ => m' <- mul_add_term e (EConst done) m ;; ret (c, m')
           end.

    (** The last part of operator*=, symbolic_expression.cc:576-614 *)
    Definition mul_flatten (lhs rhs : expr) : comp expr :=
      match lhs, rhs with
      | EMul c ts, _ => f <- mul_expr rhs (c, ts) ;; mul_get (fst f) (snd f)
      | _, EMul c ts => f <- mul_expr lhs (c, ts) ;; mul_get (fst f) (snd f)
      | _, _ =>
          if expr_eqb lhs rhs then mk_pow lhs (EConst dtwo)
          else f <- mul_expr lhs (done, []) ;; g <- mul_expr rhs f ;; mul_get (fst g) (snd g)
      end.
    (** The power cases, 545-574 *)
    Definition mul_pows (lhs rhs : expr) : comp expr :=
      match lhs with
      | EBin BPow e1 e2 =>
          match rhs with
          | EBin BPow e3 e4 =>
              if expr_eqb e1 e3 then s <- radd e2 e4 ;; mk_pow e1 s
              else if expr_eqb e1 rhs then s <- radd e2 (EConst done) ;; mk_pow e1 s
              else mul_flatten lhs rhs
          | _ =>
              if expr_eqb e1 rhs then s <- radd e2 (EConst done) ;; mk_pow e1 s
              else mul_flatten lhs rhs
          end
      | _ =>
          match rhs with
          | EBin BPow e1 e2 =>
              if expr_eqb e1 lhs then s <- radd (EConst done) e2 ;; mk_pow e1 s
              else mul_flatten lhs rhs
          | _ => mul_flatten lhs rhs
          end
      end.
    (** -1 * sum and -1 * product, 506-532; zero and constants, 534-548 *)
    Definition mul_rest (lhs rhs : expr) : comp expr :=
      if is_c lhs dzero then ret lhs
      else if is_c rhs dzero then ret (EConst dzero)
      else match lhs, rhs with
           | EConst a, EConst b => v <- fmul a b ;; ret (mk_const v)
           | _, _ => mul_pows lhs rhs
           end.
    Definition mul_neg (lhs rhs : expr) : comp expr :=
      match is_c lhs dnone, rhs with
      | true, EAdd c ts => neg_add c ts
      | true, EMul c ts => neg_mul c ts
      | _, _ =>
          match is_c rhs dnone, lhs with
          | true, EAdd c ts => neg_add c ts
          | true, EMul c ts => neg_mul c ts
          | _, _ => mul_rest lhs rhs
          end
      end.
    (** operator*=, 480-615 *)
    Definition mul_body (lhs rhs : expr) : comp expr :=
      if is_c lhs done then ret rhs
      else if is_c rhs done then ret lhs
      else match lhs, rhs with
           | EBin BDiv a b, EBin BDiv c d => n <- rmul a c ;; e <- rmul b d ;; mk_div n e
           | _, EBin BDiv (EConst k) d => n <- rmul (EConst k) lhs ;; mk_div n d
           | EBin BDiv (EConst k) b, _ => n <- rmul (EConst k) rhs ;; mk_div n b
           | _, _ => mul_neg lhs rhs
           end.
  End Rec.

  Fixpoint addmul (n : nat) : (expr -> expr -> comp expr) * (expr -> expr -> comp expr) :=
    match n with
    | 0 => ((fun _ _ => (Fuel, [])), (fun _ _ => (Fuel, [])))
    | S n' =>
        let r := addmul n' in
        (add_body (snd r), mul_body (fst r) (snd r))
    end.
  Definition mk_add (n : nat) : expr -> expr -> comp expr := fst (addmul n).
  Definition mk_mul (n : nat) : expr -> expr -> comp expr := snd (addmul n).

  (** unary -, symbolic_expression.cc:411-427 *)
  Definition mk_neg (n : nat) (e : expr) : comp expr :=
    match e with
    | EConst c => ret (mk_const (dopp c))
    | EAdd c ts => neg_add (mk_mul n) c ts
    | EMul c ts => neg_mul c ts
    | _ => mk_mul n (EConst dnone) e
    end.
  (** operator-=, 401-404 *)
  Definition mk_sub (n : nat) (a b : expr) : comp expr := b' <- mk_neg n b ;; mk_add n a b'.

  (** abs 684-690, sqrt 696-704; the other functions, 682 and 742-774, build the node *)
  Definition mk_abs (e : expr) : comp expr :=
    match e with EConst c => ret (mk_const (dabs c)) | _ => ret (EUn UAbs e) end.
  Definition mk_un (o : unop) (e : expr) : comp expr :=
    match o with
    | UAbs => mk_abs e
    | USqrt => match e with
               | EBin BPow b x => if is_c x dtwo then mk_abs b else ret (EUn USqrt e)
               | _ => ret (EUn USqrt e)
               end
    | _ => ret (EUn o e)
    end.
  (** std::min / std::max *)
  Definition dmin2 (a b : dbl) : dbl := if dlt b a then b else a.
  Definition dmax2 (a b : dbl) : dbl := if dlt a b then b else a.
  (** min, max: 776-798 *)
  Definition mk_mm (o : binop) (pick : dbl -> dbl -> dbl) (e1 e2 : expr) : comp expr :=
    if expr_eqb e1 e2 then ret e1
    else match e1, e2 with
         | EConst a, EConst b => tell (SMinMax a b) ;;; ret (mk_const (pick a b))
         | _, _ => ret (EBin o e1 e2)
         end.
  Definition mk_bin (o : binop) (e1 e2 : expr) : comp expr :=
    match o with
    | BDiv => mk_div e1 e2
    | BPow => mk_pow e1 e2
    | BAtan2 => ret (EBin BAtan2 e1 e2)
    | BMin => mk_mm BMin dmin2 e1 e2
    | BMax => mk_mm BMax dmax2 e1 e2
    end.
  (** if_then_else, 800-811 *)
  Definition mk_ite (f : formula) (a b : expr) : expr :=
    match f with FTrue => a | FFalse => b | _ => EIte f a b end.

  (** operators ==, !=, <, <=, >, >= on expressions, symbolic_formula.cc:469-559: decided when the
      difference is a constant (the NaN cell is not one) *)
  Definition mk_relm (n : nat) (op : relop) (e1 e2 : expr) : comp formula :=
    d <- mk_sub n e1 e2 ;;
    match d with
    | EConst c => if is_nan c then ret (FRel op e1 e2)
                  else tell (SCmp c) ;;; ret (if relop_on op c then FTrue else FFalse)
    | _ => ret (FRel op e1 e2)
    end.
End Ops.
