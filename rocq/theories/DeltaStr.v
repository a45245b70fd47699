(** * Strengthening and weakening by delta

    Models DeltaStrengthenVisitor, dreal/symbolic/symbolic.cc:166-410, and DeltaStrengthen / DeltaWeaken.
    Simplification: the visitor's recursion (VisitEqualTo visits its operands twice) carries fuel. *)
From Coq Require Import ZArith List Bool.
From Flocq Require Import IEEE754.BinarySingleNaN.
From Verif Require Import Dbl Syntax FormulaCons MathConv Order ExprAlg.
Import ListNotations.
Local Open Scope comp_scope.

Section Str.
  Variables (fpow : dbl -> dbl -> dbl) (n : nat).
  Notation madd := (mk_add fpow n).
  Notation mmul := (mk_mul fpow n).

  Section Loops.
    Variable vis : expr -> comp expr.
    (** VisitAddition, 189-197 *)
    Fixpoint str_sum (ts : list (expr * dbl)) (acc : expr) : comp expr :=
      match ts with
      | [] => ret acc
      | (a, k) :: ts' => a' <- vis a ;; p <- mmul (mk_const k) a' ;; acc' <- madd acc p ;; str_sum ts' acc'
      end.
    (** VisitMultiplication, 198-207 *)
    Fixpoint str_prod (ts : list (expr * expr)) (acc : expr) : comp expr :=
      match ts with
      | [] => ret acc
      | (b, e) :: ts' => b' <- vis b ;; e' <- vis e ;; p <- mk_pow fpow b' e' ;; acc' <- mmul acc p ;; str_prod ts' acc'
      end.
    (** VisitGreaterThan 310-326, VisitGreaterThanOrEqualTo 327-344, VisitLessThan 345-361,
        VisitLessThanOrEqualTo 362-378 on the two sides of the relation *)
    Definition str_rel (op : relop) (d : dbl) (a b : expr) : comp formula :=
      l <- vis a ;; r <- vis b ;;
      match op with
      | RGt | RGeq =>
          if is_variable r then l' <- mk_sub fpow n l (mk_const d) ;; mk_relm fpow n op l' r
          else r' <- madd r (mk_const d) ;; mk_relm fpow n op l r'
      | _ =>
          if is_variable l then r' <- mk_sub fpow n r (mk_const d) ;; mk_relm fpow n op l r'
          else l' <- madd l (mk_const d) ;; mk_relm fpow n op l' r
      end.
    (** the same on a formula: get_lhs_expression of a formula that is not a relation casts the cell *)
    Definition str_relF (op : relop) (d : dbl) (f : formula) : comp formula :=
      match f with FRel _ a b => str_rel op d a b | _ => (Ub, []) end.
    (** VisitEqualTo, 283-297 *)
    Definition str_eq (d : dbl) (f : formula) (a b : expr) : comp formula :=
      if dlt dzero d then ret f
      else l <- vis a ;; r <- vis b ;;
           f1 <- mk_relm fpow n RGeq l r ;; g1 <- str_relF RGeq d f1 ;;
           f2 <- mk_relm fpow n RLeq l r ;; g2 <- str_relF RLeq d f2 ;;
           ret (mk_and g1 g2).
    (** VisitNotEqualTo, 298-309 *)
    Definition str_neq (d : dbl) (a b : expr) : comp formula :=
      if dlt dzero d
      then l <- vis a ;; r <- vis b ;;
           f1 <- mk_relm fpow n RGt l r ;; g1 <- str_relF RGt d f1 ;;
           f2 <- mk_relm fpow n RLt l r ;; g2 <- str_relF RLt d f2 ;;
           ret (mk_or g1 g2)
      else ret FTrue.
  End Loops.
  Section FLoops.
    Variable vis : formula -> comp formula.
    (** VisitConjunction, VisitDisjunction: 379-392 *)
    Fixpoint str_and (fs : list formula) (acc : formula) : comp formula :=
      match fs with [] => ret acc | f :: fs' => f' <- vis f ;; str_and fs' (mk_and acc f') end.
    Fixpoint str_or (fs : list formula) (acc : formula) : comp formula :=
      match fs with [] => ret acc | f :: fs' => f' <- vis f ;; str_or fs' (mk_or acc f') end.
  End FLoops.

  (** Visit(Expression, delta) 177-275 and Visit(Formula, delta) 277-399 *)
  Fixpoint strE (k : nat) (d : dbl) (e : expr) {struct k} : comp expr :=
    match k with
    | 0 => (Fuel, [])
    | S k' =>
        match e with
        | EConst c => if is_nan c then (Throw, []) else ret e
        | EReal _ _ _ | EVar _ | EUf _ _ => ret e
        | EAdd c ts => str_sum (strE k' d) ts (mk_const c)
        | EMul c ts => str_prod (strE k' d) ts (mk_const c)
        | EUn o a => a' <- strE k' d a ;; mk_un o a'
        | EBin o a b => a' <- strE k' d a ;; b' <- strE k' d b ;; mk_bin fpow o a' b'
        | EIte f a b => f' <- strF k' d f ;; a' <- strE k' d a ;; b' <- strE k' d b ;; ret (mk_ite f' a' b')
        end
    end
  with strF (k : nat) (d : dbl) (f : formula) {struct k} : comp formula :=
    match k with
    | 0 => (Fuel, [])
    | S k' =>
        match f with
        | FTrue | FFalse | FVar _ => ret f
        | FRel REq a b => str_eq (strE k' d) d f a b
        | FRel RNeq a b => str_neq (strE k' d) d a b
        | FRel op a b => str_rel (strE k' d) op d a b
        | FAnd fs => str_and (strF k' d) fs FTrue
        | FOr fs => str_or (strF k' d) fs FFalse
        | FNot g => g' <- strF k' (dopp d) g ;; ret (mk_not g')
        | FForall _ _ => (Throw, [])
        end
    end.

  (** Strengthen, 169-174; DeltaStrengthen(f, delta), 519-522; DeltaWeaken(f, delta) strengthens by -delta,
      525-528 (the assertion delta > 0 is compiled out) *)
  Definition DeltaStrengthen (k : nat) (f : formula) (d : dbl) : comp formula :=
    if deq d dzero then ret f else strF k d f.
  Definition DeltaWeaken (k : nat) (f : formula) (d : dbl) : comp formula := DeltaStrengthen k f (dopp d).
End Str.
