(** * The SMT-LIB 2 front end

    Models the semantic actions of /repo/dreal/smt2/parser.yy (130-560), Smt2Driver (smt2/driver.cc) and Term
    (smt2/term.cc): how a script is turned into formulas and calls on the context.
    Simplifications:
    - the scanner and the grammar are not modelled: the input is the syntax tree; symbols are numbers, only
      their equality is used;
    - bounds in declarations and binders are terms in the code, evaluated to doubles on the spot (545-547);
      here they are the doubles;
    - a parse error (YYABORT) and a C++ exception are both [Throw];
    - ids of variables: every new Variable takes the next value of a process-wide counter, which the context
      also advances; [alloc k] is the id of the k-th variable made by the front end;
    - [d_notes] is a history variable: it records what each quantifier was built from. *)
From Coq Require Import ZArith List Bool.
From Flocq Require Import IEEE754.BinarySingleNaN.
From Verif Require Import Dbl Syntax FormulaCons MathConv Order ExprAlg Subst Context.
Import ListNotations.
Local Open Scope comp_scope.

(** Sort, smt2/sort.h, and SortToType, smt2/sort.cc:43-56 *)
Inductive sort := SoBinary | SoBool | SoInt | SoReal.
Definition sort_type (s : sort) : vtype :=
  match s with SoBinary => BINARY | SoBool => BOOLEAN | SoInt => INTEGER | SoReal => CONTINUOUS end.

(** The left-associative arithmetic operators *)
Inductive ariop := APlus | AMinus | ATimes | ADiv.
(** A binder of forall: name, sort, bounds (535-548) *)
Definition binder := (nat * sort * (dbl * dbl))%type.

(** The alternatives of [term], parser.yy:288-488 *)
Inductive sterm :=
| STrue | SFalse
| SSym (x : nat)
| SNum (d : dbl)                              (* INT, HEXFLOAT, DOUBLE denoting a double *)
| SDec (lb ub : dbl) (use_lb : bool)          (* any other DOUBLE *)
| SEq (a b : sterm)
| SRel (o : relop) (a b : sterm)              (* < <= > >= *)
| SAnd (l : list sterm) | SOr (l : list sterm) | SXor (l : list sterm)
| SNot (a : sterm) | SImp (a b : sterm)
| SIte (c a b : sterm)
| SForall (bs : list binder) (a : sterm)
| SLet (bs : list (nat * sterm)) (a : sterm)
| SNeg (a : sterm)                            (* (- t) *)
| SAri (o : ariop) (a : sterm) (l : list sterm)
| SFun (o : unop) (a : sterm)                 (* exp log abs sin ... sqrt *)
| SFun2 (o : binop) (a b : sterm)             (* atan2 min max pow *)
| SApp (f : nat) (l : list sterm).

(** Term, smt2/term.h *)
Inductive term := TmE (e : expr) | TmF (f : formula).
Definition throw {A} : comp A := (Throw, []).
(** Term::expression, Term::formula: term.cc:36-41, 47-52 *)
Definition getE (t : term) : comp expr := match t with TmE e => ret e | TmF _ => throw end.
Definition getF (t : term) : comp formula := match t with TmF f => ret f | TmE _ => throw end.

(** FunctionDefinition, driver.cc:40-73 *)
Record fundef := mkFd { fd_params : list var; fd_sort : sort; fd_body : term }.
(** The members of Smt2Driver that terms depend on, and the calls made on the context (last first) *)
Record drv := mkDrv {
  d_scope : list (nat * var);                       (* scope_ *)
  d_funs : list (nat * fundef);                     (* function_definition_map_ *)
  d_next : nat;
  d_ops : list cop;
  d_notes : list (list var * formula * formula)     (* binders, domain, body *)
}.
Definition drv0 : drv := mkDrv [] [] 0 [] [].
Definition with_scope (sc : list (nat * var)) (s : drv) : drv := mkDrv sc (d_funs s) (d_next s) (d_ops s) (d_notes s).
Definition emit (o : cop) (s : drv) : drv := mkDrv (d_scope s) (d_funs s) (d_next s) (o :: d_ops s) (d_notes s).
Definition note (x : list var * formula * formula) (s : drv) : drv := mkDrv (d_scope s) (d_funs s) (d_next s) (d_ops s) (x :: d_notes s).

(** ScopedUnorderedMap::find: the latest binding (C25) *)
Fixpoint assoc {A} (x : nat) (l : list (nat * A)) : option A :=
  match l with [] => None | (y, a) :: r => if Nat.eqb x y then Some a else assoc x r end.

Section Front.
  Variables (fpow : dbl -> dbl -> dbl) (n : nat) (alloc : nat -> nat).

  (** RegisterVariable, driver.cc:261-265 *)
  Definition register (x : nat) (so : sort) (s : drv) : var * drv :=
    let v := mkVar (alloc (d_next s)) (sort_type so) in
    (v, mkDrv ((x, v) :: d_scope s) (d_funs s) (S (d_next s)) (ONew v :: d_ops s) (d_notes s)).
  (** DeclareVariable, driver.cc:267-277 *)
  Definition declare_var (x : nat) (so : sort) (bd : option (dbl * dbl)) (s : drv) : var * drv :=
    let (v, s1) := register x so s in
    (v, emit (match bd with None => ODeclare v true | Some (l, u) => ODeclareDom v l u true end) s1).
  (** DeclareLocalVariable, driver.cc:303-309 *)
  Definition declare_local (x : nat) (so : sort) (s : drv) : var * drv :=
    let (v, s1) := register x so s in (v, emit (ODeclare v false) s1).
  Definition assert_f (f : formula) (s : drv) : drv := emit (OAssert f) s.

  (** EliminateBooleanVariables, driver.cc:323-334 *)
  Fixpoint elim_bools (vs : list var) (f : formula) : comp formula :=
    match vs with
    | [] => ret f
    | b :: r =>
        if vtype_eqb (vty b) BOOLEAN then
          f1 <- SubstituteF fpow n [] [(b, FTrue)] f ;; f2 <- SubstituteF fpow n [] [(b, FFalse)] f ;;
          elim_bools r (mk_and f1 f2)
        else elim_bools r f
    end.

  (** variable_sort and variable_sort_list, parser.yy:519-549: the variables are registered from left to right,
      the domain is built from right to left *)
  Fixpoint reg_binders (bs : list binder) (s : drv) : list (var * (dbl * dbl)) * drv :=
    match bs with
    | [] => ([], s)
    | (x, so, bd) :: r =>
        let (v, s1) := register x so s in
        let (q, s2) := reg_binders r s1 in ((v, bd) :: q, s2)
    end.
  Fixpoint domain_of (q : list (var * (dbl * dbl))) : comp formula :=
    match q with
    | [] => ret FTrue
    | (v, (l, u)) :: r =>
        d <- domain_of r ;;
        (* Expression(v) throws for a Boolean variable *)
        if (is_finite l || is_finite u) && vtype_eqb (vty v) BOOLEAN then throw else
        d1 <- (if is_finite l then g <- mk_relm fpow n RLeq (mk_const l) (EVar v) ;; ret (mk_and d g) else ret d) ;;
        if is_finite u then g <- mk_relm fpow n RLeq (EVar v) (mk_const u) ;; ret (mk_and d1 g) else ret d1
    end.
  (** The action of forall, parser.yy:364-374 *)
  Definition mk_quant (vs : list var) (dom f : formula) (s : drv) : comp (formula * drv) :=
    body <- elim_bools vs f ;;
    let q := filter (fun v => mem_var v (fvF body)) vs in
    ret (match q with [] => body | _ => mk_forall q (mk_imply dom body) end, note (vs, dom, body) s).

  (** let_binding_list, parser.yy:490-507, over the bindings in the order of the vector: var_binding_list
      pushes the first binding last (554-559) *)
  Fixpoint bind_lets (bs : list (nat * term)) (s : drv) : comp drv :=
    match bs with
    | [] => ret s
    | (x, TmF f) :: r =>
        let (v, s1) := declare_local x SoBool s in
        bind_lets r (assert_f (mk_or (mk_and (FVar v) f) (mk_and (mk_not (FVar v)) (mk_not f))) s1)
    | (x, TmE e) :: r =>
        let (v, s1) := declare_local x SoReal s in
        g <- mk_relm fpow n REq (EVar v) e ;; bind_lets r (assert_f g s1)
    end.

  (** Term::Check, term.cc:96-134, and Term::Substitute, 66-94 *)
  Definition is_form (t : term) : bool := match t with TmF _ => true | TmE _ => false end.
  Definition type_ok (t : term) (ty : vtype) : bool := eqb (is_form t) (vtype_eqb ty BOOLEAN).
  Definition term_subst (t : term) (v : var) (a : term) : comp term :=
    match a with
    | TmE e => match t with
               | TmE b => r <- SubstituteE fpow n [(v, e)] [] b ;; ret (TmE r)
               | TmF b => r <- SubstituteF fpow n [(v, e)] [] b ;; ret (TmF r)
               end
    | TmF f => match t with
               | TmE b => r <- SubstituteE fpow n [] [(v, f)] b ;; ret (TmE r)
               | TmF b => r <- SubstituteF fpow n [] [(v, f)] b ;; ret (TmF r)
               end
    end.
  (** FunctionDefinition::operator(), driver.cc:51-73 *)
  Fixpoint apply_args (t : term) (ps : list var) (args : list term) : comp term :=
    match ps, args with
    | p :: ps', a :: args' => if type_ok a (vty p) then t' <- term_subst t p a ;; apply_args t' ps' args' else throw
    | _, _ => ret t
    end.
  Definition apply_fun (fd : fundef) (args : list term) : comp term :=
    if negb (Nat.eqb (length (fd_params fd)) (length args)) then throw
    else if negb (type_ok (fd_body fd) (sort_type (fd_sort fd))) then throw
    else apply_args (fd_body fd) (fd_params fd) args.

  (** The loops of and, or, xor, parser.yy:313-332 *)
  Fixpoint fold_form (step : formula -> formula -> formula) (l : list term) (f : formula) : comp formula :=
    match l with [] => ret f | t :: r => g <- getF t ;; fold_form step r (step f g) end.
  Definition xor_step (f g : formula) : formula := mk_or (mk_and f (mk_not g)) (mk_and (mk_not f) g).
  (** The loops of + - * /, parser.yy:407-432 *)
  Definition ari_step (o : ariop) : expr -> expr -> comp expr :=
    match o with APlus => mk_add fpow n | AMinus => mk_sub fpow n | ATimes => mk_mul fpow n | ADiv => mk_div end.
  Fixpoint fold_ari (o : ariop) (l : list term) (e : expr) : comp expr :=
    match l with [] => ret e | t :: r => a <- getE t ;; e' <- ari_step o e a ;; fold_ari o r e' end.

  Section Lists.
    Variable el : sterm -> drv -> comp (term * drv).
    (** term_list, var_binding_list *)
    Fixpoint elabs (l : list sterm) (s : drv) : comp (list term * drv) :=
      match l with
      | [] => ret ([], s)
      | a :: r => p <- el a s ;; q <- elabs r (snd p) ;; ret (fst p :: fst q, snd q)
      end.
    Fixpoint elab_binds (l : list (nat * sterm)) (s : drv) : comp (list (nat * term) * drv) :=
      match l with
      | [] => ret ([], s)
      | (x, a) :: r => p <- el a s ;; q <- elab_binds r (snd p) ;; ret ((x, fst p) :: fst q, snd q)
      end.
  End Lists.

  (** term, parser.yy:288-488 *)
  Fixpoint elab (t : sterm) (s : drv) {struct t} : comp (term * drv) :=
    match t with
    | STrue => ret (TmF FTrue, s)
    | SFalse => ret (TmF FFalse, s)
    | SSym x =>
        match assoc x (d_scope s) with
        | None => throw
        | Some v => ret (match vty v with BOOLEAN => TmF (FVar v) | _ => TmE (EVar v) end, s)
        end
    | SNum d => ret (TmE (mk_const d), s)
    | SDec lb ub u => ret (TmE (EReal lb ub u), s)
    | SEq a b =>
        p <- elab a s ;; q <- elab b (snd p) ;;
        match fst p, fst q with
        | TmE x, TmE y => g <- mk_relm fpow n REq x y ;; ret (TmF g, snd q)
        | TmF x, TmF y => ret (TmF (mk_feq x y), snd q)
        | _, _ => throw
        end
    | SRel o a b =>
        p <- elab a s ;; q <- elab b (snd p) ;;
        x <- getE (fst p) ;; y <- getE (fst q) ;; g <- mk_relm fpow n o x y ;; ret (TmF g, snd q)
    | SAnd l => p <- elabs elab l s ;; g <- fold_form mk_and (fst p) FTrue ;; ret (TmF g, snd p)
    | SOr l => p <- elabs elab l s ;; g <- fold_form mk_or (fst p) FFalse ;; ret (TmF g, snd p)
    | SXor l => p <- elabs elab l s ;; g <- fold_form xor_step (fst p) FFalse ;; ret (TmF g, snd p)
    | SNot a => p <- elab a s ;; x <- getF (fst p) ;; ret (TmF (mk_not x), snd p)
    | SImp a b =>
        p <- elab a s ;; q <- elab b (snd p) ;;
        x <- getF (fst p) ;; y <- getF (fst q) ;; ret (TmF (mk_or (mk_not x) y), snd q)
    | SIte c a b =>
        p <- elab c s ;; q <- elab a (snd p) ;; r <- elab b (snd q) ;;
        g <- getF (fst p) ;;
        match fst q, fst r with
        | TmE x, TmE y => ret (TmE (mk_ite g x y), snd r)
        | TmF x, TmF y => ret (TmF (mk_and (mk_or (mk_not g) x) (mk_or g y)), snd r)
        | _, _ => throw
        end
    | SForall bs a =>
        let (q, s1) := reg_binders bs s in
        dom <- domain_of q ;;
        p <- elab a s1 ;; f <- getF (fst p) ;;
        r <- mk_quant (map fst q) dom f (snd p) ;;
        ret (TmF (fst r), with_scope (d_scope s) (snd r))
    | SLet bs a =>
        p <- elab_binds elab bs s ;;
        s1 <- bind_lets (rev (fst p)) (snd p) ;;
        q <- elab a s1 ;;
        ret (fst q, with_scope (d_scope s) (snd q))
    | SNeg a => p <- elab a s ;; x <- getE (fst p) ;; e <- mk_neg fpow n x ;; ret (TmE e, snd p)
    | SAri o a l =>
        p <- elab a s ;; q <- elabs elab l (snd p) ;;
        match fst q with
        | [] => ret (fst p, snd q)
        | _ => x <- getE (fst p) ;; e <- fold_ari o (fst q) x ;; ret (TmE e, snd q)
        end
    | SFun o a => p <- elab a s ;; x <- getE (fst p) ;; e <- mk_un o x ;; ret (TmE e, snd p)
    | SFun2 o a b =>
        p <- elab a s ;; q <- elab b (snd p) ;;
        x <- getE (fst p) ;; y <- getE (fst q) ;; e <- mk_bin fpow o x y ;; ret (TmE e, snd q)
    | SApp f l =>
        p <- elabs elab l s ;;
        match assoc f (d_funs (snd p)) with
        | None => throw
        | Some fd => t' <- apply_fun fd (fst p) ;; ret (t', snd p)
        end
    end.

  (** ** Commands *)
  Inductive scmd :=
  | KDeclare (x : nat) (so : sort) (bd : option (dbl * dbl))     (* declare-fun, declare-const *)
  | KDefine (f : nat) (ps : list (nat * sort)) (so : sort) (t : sterm)
  | KAssert (t : sterm)
  | KPush (k : nat) | KPop (k : nat)
  | KCheck (fuel : nat).

  (** name_sort_list, parser.yy:519-531 *)
  Fixpoint reg_params (ps : list (nat * sort)) (s : drv) : list var * drv :=
    match ps with
    | [] => ([], s)
    | (x, so) :: r => let (v, s1) := declare_local x so s in let (q, s2) := reg_params r s1 in (v :: q, s2)
    end.
  Fixpoint emits (k : nat) (o : cop) (s : drv) : drv := match k with 0 => s | S k' => emits k' o (emit o s) end.

  (** command_assert 141-151, command_declare_fun 157-173, command_define_fun 175-189, command_push and
      command_pop 274-282 with Context::Push and Pop (context.cc:65-85), command_check_sat 152-156 *)
  Definition command (c : scmd) (s : drv) : comp drv :=
    match c with
    | KDeclare x so bd => ret (snd (declare_var x so bd s))
    | KDefine f ps so t =>
        let (vs, s1) := reg_params ps s in
        p <- elab t s1 ;;
        let s2 := with_scope (d_scope s) (snd p) in
        match vs with
        | [] =>
            let (v, s3) := declare_var f so None s2 in
            (* Formula(v) and Expression(v) throw for a variable of the wrong kind
               (symbolic_formula_cell.cc:177-195, symbolic_expression_cell.cc:313-335) *)
            if negb (type_ok (fst p) (vty v)) then throw else
            match fst p with
            | TmF g => ret (assert_f (mk_feq (FVar v) g) s3)
            | TmE e => g <- mk_relm fpow n REq (EVar v) e ;; ret (assert_f g s3)
            end
        | _ => ret (mkDrv (d_scope s2) ((f, mkFd vs so (fst p)) :: d_funs s2) (d_next s2) (d_ops s2) (d_notes s2))
        end
    | KAssert t => p <- elab t s ;; f <- getF (fst p) ;; ret (assert_f f (snd p))
    | KPush k => if Nat.eqb k 0 then throw else ret (emits k OPush s)
    | KPop k => if Nat.eqb k 0 then throw else ret (emits k OPop s)
    | KCheck fuel => ret (emit (OCheck fuel) s)
    end.
  Fixpoint script (cs : list scmd) (s : drv) : comp drv :=
    match cs with [] => ret s | c :: r => s1 <- command c s ;; script r s1 end.
End Front.
