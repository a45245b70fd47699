(** * The ordering of expressions and formulas used by the operand containers

    Models [Less]: symbolic_expression.cc:213-232, symbolic_expression_cell.cc (265-271 unary, 290-304
    binary, 346-352 variable, 403-407 constant, 448-453 decimal literal, 553-580 addition, 705-735
    multiplication, 2022-2043 if-then-else, 2107-2121 uninterpreted function),
    symbolic_formula.cc:96-107, symbolic_formula_cell.cc (62-73, 100-108, 203-208, 514-519, 552-563),
    symbolic_variables.cc:75-79.

    Simplification: [Less(a, b)] is [cmpE a b = Lt]; the code's pattern "Less(a, b), else Less(b, a),
    else compare the rest" is the three-way comparison.  Function names are numbers. *)
From Coq Require Import ZArith List Bool Arith.
From Flocq Require Import IEEE754.BinarySingleNaN.
From Verif Require Import Dbl Syntax.
Import ListNotations.

(** ExpressionKind, symbolic_expression.h:24-52.  The NaN cell is the constant NaN of the model. *)
Definition kindE (e : expr) : nat :=
  match e with
  | EConst c => if is_nan c then 26 else 0
  | EReal _ _ _ => 1
  | EVar _ => 2
  | EAdd _ _ => 3
  | EMul _ _ => 4
  | EBin BDiv _ _ => 5
  | EUn ULog _ => 6
  | EUn UAbs _ => 7
  | EUn UExp _ => 8
  | EUn USqrt _ => 9
  | EBin BPow _ _ => 10
  | EUn USin _ => 11
  | EUn UCos _ => 12
  | EUn UTan _ => 13
  | EUn UAsin _ => 14
  | EUn UAcos _ => 15
  | EUn UAtan _ => 16
  | EBin BAtan2 _ _ => 17
  | EUn USinh _ => 18
  | EUn UCosh _ => 19
  | EUn UTanh _ => 20
  | EBin BMin _ _ => 21
  | EBin BMax _ _ => 22
  | EIte _ _ _ => 23
  | EUf _ _ => 27
  end.
(** FormulaKind, symbolic_formula.h:21-37 *)
Definition kindR (o : relop) : nat :=
  match o with REq => 3 | RNeq => 4 | RGt => 5 | RGeq => 6 | RLt => 7 | RLeq => 8 end.
Definition kindF (f : formula) : nat :=
  match f with
  | FFalse => 0 | FTrue => 1 | FVar _ => 2 | FRel o _ _ => kindR o
  | FAnd _ => 9 | FOr _ => 10 | FNot _ => 11 | FForall _ _ => 12
  end.

(** [<] on doubles, both ways *)
Definition dcmp (a b : dbl) : comparison := if dlt a b then Lt else if dlt b a then Gt else Eq.
(** ExpressionRealConstant::get_value, symbolic_expression_cell.h:261 *)
Definition rep (lb ub : dbl) (use_lb : bool) : dbl := if use_lb then lb else ub.

Definition thenc (c d : comparison) : comparison := match c with Eq => d | _ => c end.
(** std::lexicographical_compare *)
Section Lex.
  Context {A : Type} (cmp : A -> A -> comparison).
  Fixpoint lex (l m : list A) : comparison :=
    match l, m with
    | [], [] => Eq
    | [], _ :: _ => Lt
    | _ :: _, [] => Gt
    | x :: l', y :: m' => thenc (cmp x y) (lex l' m')
    end.
End Lex.
Definition vcmp (a b : var) : comparison := Nat.compare (vid a) (vid b).

Fixpoint cmpE (x y : expr) {struct x} : comparison :=
  match x, y with
  | EConst a, EConst b => thenc (Nat.compare (kindE x) (kindE y)) (dcmp a b)
  | EReal a b u, EReal a' b' u' => dcmp (rep a b u) (rep a' b' u')
  | EVar v, EVar w => vcmp v w
  | EAdd c ts, EAdd d us =>
      thenc (dcmp c d)
        (lex (fun (p q : expr * dbl) =>
          match p with (a, k) => match q with (b, j) => thenc (cmpE a b) (dcmp k j) end end) ts us)
  | EMul c ts, EMul d us =>
      thenc (dcmp c d)
        (lex (fun (p q : expr * expr) =>
          match p with (a, k) => match q with (b, j) => thenc (cmpE a b) (cmpE k j) end end) ts us)
  | EUn _ a, EUn _ b => thenc (Nat.compare (kindE x) (kindE y)) (cmpE a b)
  | EBin _ a b, EBin _ c d => thenc (Nat.compare (kindE x) (kindE y)) (thenc (cmpE a c) (cmpE b d))
  | EIte f a b, EIte g c d => thenc (cmpF f g) (thenc (cmpE a c) (cmpE b d))
  | EUf n vs, EUf m ws => thenc (Nat.compare n m) (lex vcmp vs ws)
  | _, _ => Nat.compare (kindE x) (kindE y)
  end
with cmpF (f g : formula) {struct f} : comparison :=
  match f, g with
  | FVar v, FVar w => vcmp v w
  | FRel _ a b, FRel _ c d => thenc (Nat.compare (kindF f) (kindF g)) (thenc (cmpE a c) (cmpE b d))
  | FAnd fs, FAnd gs => lex cmpF fs gs
  | FOr fs, FOr gs => lex cmpF fs gs
  | FNot a, FNot b => cmpF a b
  | FForall vs a, FForall ws b => thenc (lex vcmp vs ws) (cmpF a b)
  | _, _ => Nat.compare (kindF f) (kindF g)
  end.
