(** * Substitution

    Models Expression::Substitute and Formula::Substitute (symbolic_expression.cc:259-282,
    symbolic_formula.cc:117-150) and the Substitute member of every cell
    (symbolic_expression_cell.cc, symbolic_formula_cell.cc; lines cited below).
    Simplification: the two substitutions, hash maps in the code, are association lists; only lookup and
    erase are used. *)
From Coq Require Import ZArith List Bool.
From Flocq Require Import IEEE754.BinarySingleNaN.
From Verif Require Import Dbl Syntax FormulaCons MathConv Order ExprAlg.
Import ListNotations.
Local Open Scope comp_scope.

(** unordered_map::find and erase *)
Fixpoint slookup {A} (v : var) (s : list (var * A)) : option A :=
  match s with
  | [] => None
  | (w, a) :: s' => if var_eqb v w then Some a else slookup v s'
  end.
Definition serase {A} (vs : list var) (s : list (var * A)) : list (var * A) :=
  filter (fun p => negb (mem_var (fst p) vs)) s.

Section Subst.
  Variables (fpow : dbl -> dbl -> dbl) (n : nat).

  (** The loop of ExpressionAdd::Substitute, symbolic_expression_cell.cc:606-610 *)
  Section Loops.
    Variable sub : expr -> comp expr.
    Fixpoint add_loop (ts : list (expr * dbl)) (f : dbl * list (expr * dbl)) : comp (dbl * list (expr * dbl)) :=
      match ts with
      | [] => ret f
      | (a, k) :: ts' =>
          a' <- sub a ;; p <- mk_mul fpow n a' (mk_const k) ;; f' <- add_expr fpow p f ;; add_loop ts' f'
      end.
    (** The loop of ExpressionMul::Substitute, 867-872 *)
    Fixpoint mul_loop (ts : list (expr * expr)) (f : dbl * list (expr * expr)) : comp (dbl * list (expr * expr)) :=
      match ts with
      | [] => ret f
      | (b, e) :: ts' =>
          b' <- sub b ;; e' <- sub e ;; p <- mk_pow fpow b' e' ;;
          f' <- mul_expr (mk_add fpow n) (mk_mul fpow n) p f ;; mul_loop ts' f'
      end.
  End Loops.
  Section FLoops.
    Variable sub : formula -> comp formula.
    (** The loops of FormulaAnd::Substitute and FormulaOr::Substitute, symbolic_formula_cell.cc:434-452 and
        476-494; the Boolean is [changed] *)
    Fixpoint and_loop (fs : list formula) (acc : formula) (ch : bool) : comp (option formula) :=
      match fs with
      | [] => ret (if ch then Some acc else None)
      | f :: fs' =>
          f' <- sub f ;;
          let same := formula_eqb f f' in
          let acc' := mk_and acc (if same then f else f') in
          if is_false acc' then ret (Some acc') else and_loop fs' acc' (ch || negb same)
      end.
    Fixpoint or_loop (fs : list formula) (acc : formula) (ch : bool) : comp (option formula) :=
      match fs with
      | [] => ret (if ch then Some acc else None)
      | f :: fs' =>
          f' <- sub f ;;
          let same := formula_eqb f f' in
          let acc' := mk_or acc (if same then f else f') in
          if is_true acc' then ret (Some acc') else or_loop fs' acc' (ch || negb same)
      end.
  End FLoops.

  (** ExpressionUninterpretedFunction::Substitute, symbolic_expression_cell.cc:2126-2154 *)
  Definition uf_vars (sE : list (var * expr)) (sF : list (var * formula)) (vs : list var) : list var :=
    flat_map (fun v => if vtype_eqb (vty v) BOOLEAN
                       then match slookup v sF with Some f => fvF f | None => [] end
                       else match slookup v sE with Some e => fvE e | None => [] end) vs.

  (** ExpressionVar 366-373; constants 410, 460, 503; Add 603-612; Mul 864-874; the unary cells (1300-1312 for
      Log, and alike); the binary cells (1241-1254 for Div, and alike); IfThenElse 2059-2072.
      FormulaTrue/False 144, 170; FormulaVar 224-231; relations 270-281 and alike; And 432-457; Or 474-499;
      Not 525-533; Forall 573-594. *)
  Fixpoint substE (sE : list (var * expr)) (sF : list (var * formula)) (e : expr) {struct e} : comp expr :=
    match e with
    | EConst _ | EReal _ _ _ => ret e
    | EVar v => ret (match slookup v sE with Some e' => e' | None => e end)
    | EAdd c ts => f <- add_loop (substE sE sF) ts (c, []) ;; add_get (mk_mul fpow n) f
    | EMul c ts => f <- mul_loop (substE sE sF) ts (c, []) ;; mul_get fpow (fst f) (snd f)
    | EUn o a =>
        a' <- substE sE sF a ;;
        if expr_eqb a a' then ret e else mk_un o a'
    | EBin o a b =>
        a' <- substE sE sF a ;; b' <- substE sE sF b ;;
        if expr_eqb a a' && expr_eqb b b' then ret e else mk_bin fpow o a' b'
    | EIte f a b =>
        f' <- substF sE sF f ;; a' <- substE sE sF a ;; b' <- substE sE sF b ;;
        if formula_eqb f f' && expr_eqb a a' && expr_eqb b b' then ret e else ret (mk_ite f' a' b')
    | EUf m vs => ret (EUf m (uf_vars sE sF vs))
    end
  with substF (sE : list (var * expr)) (sF : list (var * formula)) (f : formula) {struct f} : comp formula :=
    match f with
    | FTrue | FFalse => ret f
    | FVar v => ret (match slookup v sF with Some f' => f' | None => f end)
    | FRel o a b =>
        a' <- substE sE sF a ;; b' <- substE sE sF b ;;
        if expr_eqb a a' && expr_eqb b b' then ret f else mk_relm fpow n o a' b'
    | FAnd fs => r <- and_loop (substF sE sF) fs FTrue false ;; ret (match r with Some g => g | None => f end)
    | FOr fs => r <- or_loop (substF sE sF) fs FFalse false ;; ret (match r with Some g => g | None => f end)
    | FNot g => g' <- substF sE sF g ;; if formula_eqb g g' then ret f else ret (mk_not g')
    | FForall vs g =>
        g' <- substF (serase (filter (fun v => negb (vtype_eqb (vty v) BOOLEAN)) vs) sE)
                     (serase (filter (fun v => vtype_eqb (vty v) BOOLEAN) vs) sF) g ;;
        if formula_eqb g g' then ret f else ret (mk_forall vs g')
    end.

  (** The public entry points return *this when both substitutions are empty. *)
  Definition SubstituteE (sE : list (var * expr)) (sF : list (var * formula)) (e : expr) : comp expr :=
    match sE, sF with [], [] => ret e | _, _ => substE sE sF e end.
  Definition SubstituteF (sE : list (var * expr)) (sF : list (var * formula)) (f : formula) : comp formula :=
    match sE, sF with [], [] => ret f | _, _ => substF sE sF f end.
End Subst.
