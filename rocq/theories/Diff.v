(** * Symbolic differentiation

    Models Expression::Differentiate (symbolic_expression.cc:292-295) and the Differentiate member of every
    cell (symbolic_expression_cell.cc; lines cited below). *)
From Coq Require Import ZArith List Bool.
From Flocq Require Import IEEE754.BinarySingleNaN.
From Verif Require Import Dbl Syntax FormulaCons MathConv Order ExprAlg.
Import ListNotations.
Local Open Scope comp_scope.

Section Diff.
  Variables (fpow : dbl -> dbl -> dbl) (n : nat) (x : var).
  Notation madd := (mk_add fpow n).
  Notation msub := (mk_sub fpow n).
  Notation mmul := (mk_mul fpow n).
  Notation mpow := (mk_pow fpow).
  Notation one := (EConst done).
  Notation two := (EConst dtwo).

  (** is_constant(e): the NaN cell is not a constant *)
  Definition isc (e : expr) : bool := match e with EConst c => negb (is_nan c) | _ => false end.

  (** DifferentiatePow, 876-898; [f'] and [g'] are the derivatives of base and exponent *)
  Definition diff_pow (f g : expr) (f' g' : comp expr) : comp expr :=
    if isc g then m <- msub g one ;; p <- mpow f m ;; a <- mmul g p ;; df <- f' ;; mmul a df
    else if isc f then p <- mpow f g ;; a <- mmul (EUn ULog f) p ;; dg <- g' ;; mmul a dg
    else m <- msub g one ;; p <- mpow f m ;;
         df <- f' ;; a <- mmul g df ;;
         b <- mmul (EUn ULog f) f ;; dg <- g' ;; c <- mmul b dg ;;
         s <- madd a c ;; mmul p s.

  (** Log 1311-1315, Exp 1390-1394, Sqrt 1436-1440, Sin 1525-1529, Cos 1561-1565, Tan 1597-1601,
      Asin 1643-1647, Acos 1692-1696, Atan 1732-1736, Sinh 1815-1819, Cosh 1852-1856, Tanh 1889-1893.
      Abs is treated in [diff]. *)
  Definition diff_un (o : unop) (f df : expr) : comp expr :=
    match o with
    | ULog => mk_div df f
    | UAbs => ret (EConst dzero)
    | UExp => mmul (EUn UExp f) df
    | USqrt => s <- mk_un USqrt f ;; d <- mmul two s ;; q <- mk_div one d ;; mmul q df
    | USin => mmul (EUn UCos f) df
    | UCos => s <- mk_neg fpow n (EUn USin f) ;; mmul s df
    | UTan => p <- mpow (EUn UCos f) two ;; q <- mk_div one p ;; mmul q df
    | UAsin => p <- mpow f two ;; d <- msub one p ;; s <- mk_un USqrt d ;; q <- mk_div one s ;; mmul q df
    | UAcos => p <- mpow f two ;; d <- msub one p ;; s <- mk_un USqrt d ;; q <- mk_div (EConst dnone) s ;; mmul q df
    | UAtan => p <- mpow f two ;; d <- madd one p ;; q <- mk_div one d ;; mmul q df
    | USinh => mmul (EUn UCosh f) df
    | UCosh => mmul (EUn USinh f) df
    | UTanh => p <- mpow (EUn UCosh f) two ;; q <- mk_div one p ;; mmul q df
    end.

  Section Loops.
    Variable dif : expr -> comp expr.
    (** The loop of ExpressionAdd::Differentiate, 618-623 *)
    Fixpoint diff_sum (ts : list (expr * dbl)) (acc : expr) : comp expr :=
      match ts with
      | [] => ret acc
      | (a, k) :: ts' => da <- dif a ;; p <- mmul (mk_const k) da ;; acc' <- madd acc p ;; diff_sum ts' acc'
      end.
    (** The loop of ExpressionMul::Differentiate, 912-916; [e] is the product without its constant *)
    Fixpoint diff_prod (e : expr) (ts : list (expr * expr)) (acc : expr) : comp expr :=
      match ts with
      | [] => ret acc
      | (b, x) :: ts' =>
          d <- diff_pow b x (dif b) (dif x) ;; a <- mmul e d ;;
          m <- mk_neg fpow n x ;; p <- mpow b m ;; q <- mmul a p ;;
          acc' <- madd acc q ;; diff_prod e ts' acc'
      end.
  End Loops.

  (** Var 375-380, constants 416, 465, NaN 508, Add 614-625, Mul 900-918, Div 1256-1261, Pow 1487-1489,
      Atan2 1773-1779, Abs 1350-1358, Min 1929-1937, Max 1976-1984, IfThenElse 2073-2081,
      UninterpretedFunction 2152-2167 *)
  Fixpoint diff (e : expr) : comp expr :=
    match e with
    | EConst c => if is_nan c then (Throw, []) else ret (EConst dzero)
    | EReal _ _ _ => ret (EConst dzero)
    | EVar v => ret (EConst (if var_eqb x v then done else dzero))
    | EAdd _ ts => diff_sum diff ts (EConst dzero)
    | EMul c ts => m <- mul_get fpow done ts ;; s <- diff_prod diff m ts (EConst dzero) ;; mmul (mk_const c) s
    | EUn UAbs _ | EBin BMin _ _ | EBin BMax _ _ | EIte _ _ _ | EUf _ _ =>
        if mem_var x (fvE e) then (Throw, []) else ret (EConst dzero)
    | EUn o f => df <- diff f ;; diff_un o f df
    | EBin BDiv f g =>
        df <- diff f ;; a <- mmul df g ;; dg <- diff g ;; b <- mmul f dg ;; s <- msub a b ;;
        p <- mpow g two ;; mk_div s p
    | EBin BPow f g => diff_pow f g (diff f) (diff g)
    | EBin BAtan2 f g =>
        df <- diff f ;; a <- mmul g df ;; dg <- diff g ;; b <- mmul f dg ;; s <- msub a b ;;
        p <- mpow f two ;; q <- mpow g two ;; d <- madd p q ;; mk_div s d
    end.
End Diff.
