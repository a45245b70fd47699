(** * Problems in the .dr format

    Models dreal/dr/parser.yy (grammar actions, 100-225) and dreal/dr/driver.cc (76-122).

    - The input is the syntax tree; the scanner and the precedences of the grammar are not modelled.  Names are
      numbers.  A literal is the double that std::stod returns (scanner.ll:133-146).
    - [evl e] is Expression::Evaluate() with an empty environment: [None] if it throws (NaN, or a variable in a
      bound).
    - An unknown name makes the parser stop without solving (parser.yy:185-193); exceptions end the program.  Both are
      [Throw] here: nothing is printed on the standard output.
    - Variables take identifiers from [nx] on, in the order of the declarations. *)
From Coq Require Import ZArith List Bool.
From Flocq Require Import IEEE754.BinarySingleNaN.
From Verif Require Import Dbl Syntax FormulaCons Interval IEval ExprAlg Contr Icp Theory IteElim Sat Context Smt2 Minim.
Import ListNotations.
Local Open Scope comp_scope.

Inductive dexp :=
| DNum (d : dbl) | DId (x : nat)
| DAdd (a b : dexp) | DSub (a b : dexp) | DMul (a b : dexp) | DNeg (a : dexp)
| DUn (o : unop) (a : dexp)
| DBin (o : binop) (a b : dexp).               (* / pow ^ atan2 min max *)
(** = < <= > >= *)
Inductive drel := DEq | DLt | DLe | DGt | DGe.
Inductive dform :=
| DRel (o : drel) (a b : dexp)
| DAnd (f g : dform) | DOr (f g : dform) | DImp (f g : dform) | DNot (f : dform).
(** [e1, e2] x;   or   e x; *)
Record ddecl := mkDecl { dd_lb : dexp; dd_ub : option dexp; dd_name : nat }.
Record dfile := mkDr { dr_vars : list ddecl; dr_ctr : list dform; dr_cost : list dexp }.

(** What Solve prints, driver.cc:110-119 *)
Inductive dline :=
| OutUnsat
| OutDelta (precision : dbl)                     (* delta-sat with delta = ... *)
| OutModel (b : box)
| OutMin (f : expr) (d : dbl).                   (* Found minimum for f is d *)

Section Dr.
  Variables (fpow : dbl -> dbl -> dbl) (n : nat) (evl : expr -> option dbl).

  (** expr, parser.yy:183-219; lookup_variable, driver.cc:76-82 (the scope holds the latest declaration first) *)
  Fixpoint dr_exp (sc : list (nat * var)) (e : dexp) : comp expr :=
    match e with
    | DNum d => ret (mk_const d)
    | DId x => match assoc x sc with Some v => ret (EVar v) | None => throw end
    | DAdd a b => p <- dr_exp sc a ;; q <- dr_exp sc b ;; mk_add fpow n p q
    | DSub a b => p <- dr_exp sc a ;; q <- dr_exp sc b ;; mk_sub fpow n p q
    | DMul a b => p <- dr_exp sc a ;; q <- dr_exp sc b ;; mk_mul fpow n p q
    | DNeg a => p <- dr_exp sc a ;; mk_neg fpow n p
    | DUn o a => p <- dr_exp sc a ;; mk_un o p
    | DBin o a b => p <- dr_exp sc a ;; q <- dr_exp sc b ;; mk_bin fpow o p q
    end.
  Definition drel_op (o : drel) : relop := match o with DEq => REq | DLt => RLt | DLe => RLeq | DGt => RGt | DGe => RGeq end.
  (** formula, parser.yy:167-178 *)
  Fixpoint dr_form (sc : list (nat * var)) (f : dform) : comp formula :=
    match f with
    | DRel o a b => p <- dr_exp sc a ;; q <- dr_exp sc b ;; mk_relm fpow n (drel_op o) p q
    | DAnd f g => p <- dr_form sc f ;; q <- dr_form sc g ;; ret (mk_and p q)
    | DOr f g => p <- dr_form sc f ;; q <- dr_form sc g ;; ret (mk_or p q)
    | DImp f g => p <- dr_form sc f ;; q <- dr_form sc g ;; ret (mk_or (mk_not p) q)
    | DNot f => p <- dr_form sc f ;; ret (mk_not p)
    end.

  Definition evaluate (e : expr) : comp dbl :=
    match evl e with Some d => if is_nan d then throw else ret d | None => throw end.
  (** var_decl, parser.yy:123-129; DeclareVariable, driver.cc:89-93 (Context::DeclareVariable, context.cc:48-53) *)
  Fixpoint dr_decls (ds : list ddecl) (sc : list (nat * var)) (nx : nat) : comp (list (nat * var) * list cop) :=
    match ds with
    | [] => ret (sc, [])
    | d :: ds' =>
        let v := mkVar nx CONTINUOUS in
        p <- dr_exp sc (dd_lb d) ;; q <- (match dd_ub d with Some e => dr_exp sc e | None => ret p end) ;;
        l <- evaluate p ;; u <- evaluate q ;;
        r <- dr_decls ds' ((dd_name d, v) :: sc) (S nx) ;;
        ret (fst r, ONew v :: ODeclareDom v l u true :: snd r)
    end.
  Fixpoint collect {A B} (f : A -> comp B) (l : list A) : comp (list B) :=
    match l with [] => ret [] | a :: l' => x <- f a ;; r <- collect f l' ;; ret (x :: r) end.

  (** The whole file: the declarations and assertions (Assert, driver.cc:95; the loop of Solve, 101-103) made on the
      context, and objectives_ (97) *)
  Definition dr_calls (d : dfile) (nx : nat) : comp (list cop * list expr) :=
    r <- dr_decls (dr_vars d) [] nx ;;
    fs <- collect (dr_form (fst r)) (dr_ctr d) ;;
    gs <- collect (dr_exp (fst r)) (dr_cost d) ;;
    ret (snd r ++ map OAssert fs, gs).

  Section Solve.
    Variables (fold : expr -> expr -> option dbl) (K : eops) (pico : pico_t) (T : nat -> box -> list formula -> option tres) (mid : dbl -> dbl -> dbl) (precision : dbl).
    (** ExpressionEvaluator, solver/expression_evaluator.cc (IEval.v) *)
    Variable eval : expr -> box -> ival.
    (** Solve prints, driver.cc:109-121 *)
    Definition dr_print (models : bool) (gs : list expr) (r : option box) : list dline :=
      match r with
      | None => [OutUnsat]
      | Some m => OutDelta precision :: (if models then OutModel m :: map (fun g => OutMin g (mid (ilb (eval g m)) (iub (eval g m)))) gs else [])
      end.
    (** Solve, driver.cc:99-121: [None] if the context fails *)
    Definition dr_solve (ops : list cop) (gs : list expr) (models : bool) (nx fuel : nat) : comp (option (list dline)) :=
      match cx_run fold K pico T mid precision ops (cx_init nx) with
      | Some (c, []) =>
          mops <- (match gs with [] => ret [] | _ => minimize fpow n gs c end) ;;
          ret (match cx_run fold K pico T mid precision (mops ++ [OCheck fuel]) c with
               | Some (_, [r]) => Some (dr_print models gs r)
               | _ => None
               end)
      | _ => ret None
      end.
    Definition dr_run (d : dfile) (models : bool) (nx fuel : nat) : comp (option (list dline)) :=
      p <- dr_calls d nx ;; dr_solve (fst p) (snd p) models nx fuel.
  End Solve.
End Dr.
