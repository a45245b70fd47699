(** * Optimization: Minimize and Maximize

    Models dreal/solver/context_impl.cc:251-328 and dreal/solver/context.cc:57-63.

    - [stack] is stack_, [b] is box(), [nx] the global counter of variable identifiers
      (symbolic_variable.cc:22-26): the variables y_i, then the variables z_i, take the next ones.
    - The result is the list of the calls made on the context (new variables, AddToBox of each z_i, the final
      Assert) in order, as [cop]s of Context.v.
    - The unordered_set of constraints is a list without duplicates; only membership matters, because its elements
      are inserted into a std::set (here [finsert]) before use.
    - The fixpoint loop runs at most once per stacked formula plus once; the fuel is that number, and
      MinimProofs.close_enough shows that it is never exhausted.
    - Names of variables are dropped.  If an exception is thrown half-way, the z_i already added to the box stay
      there; the model just ends in [Throw]. *)
From Coq Require Import ZArith List Bool.
From Flocq Require Import IEEE754.BinarySingleNaN.
From Verif Require Import Dbl Syntax FormulaCons MathConv Order Interval ExprAlg Subst VarSet Scoped IteElim Sat Context Smt2.
Import ListNotations.
Local Open Scope comp_scope.

(** Variables::operator+=, third_party/.../symbolic_variables.cc:84-87 *)
Definition vs_union (s l : list var) : list var := fold_left (fun s x => vs_insert x s) l s.

(** The body of the loop over stack_, 283-290: the set of variables, the set of constraints, keep_going *)
Fixpoint mn_pass (stack : list formula) (xs : list var) (cs : list formula) (going : bool) : list var * list formula * bool :=
  match stack with
  | [] => (xs, cs, going)
  | f :: stack' =>
      if negb (fmem f cs) && have_intersection xs (vs_of (fvF f))
      then mn_pass stack' (vs_union xs (vs_of (fvF f))) (cs ++ [f]) true
      else mn_pass stack' xs cs going
  end.
(** while (keep_going), 281-291 *)
Fixpoint mn_close (k : nat) (stack : list formula) (xs : list var) (cs : list formula) : comp (list var * list formula) :=
  match k with
  | 0 => (Fuel, [])
  | S k' => match mn_pass stack xs cs false with
            | (xs', cs', true) => mn_close k' stack xs' cs'
            | (xs', cs', false) => ret (xs', cs')
            end
  end.

Section Min.
  Variables (fpow : dbl -> dbl -> dbl) (n : nat).

  (** y_i, 295 *)
  Definition mn_y (x : var) (i : nat) : var := mkVar i (vty x).
  (** The loop over x_vars, 293-309: the substitution and set_of_negated_phi.  The entry x_i -> Expression(y_i) of
      the substitution (297) throws for a Boolean variable (symbolic_expression.cc:151-160). *)
  Fixpoint mn_vars (b : box) (xs : list var) (i : nat) (phi : list formula) : comp (list (var * expr) * list formula) :=
    match xs with
    | [] => ret ([], phi)
    | x :: xs' =>
        let y := mn_y x i in
        if vtype_eqb (vty x) BOOLEAN then throw else
        let lb := ilb (b_getv b x) in
        let ub := iub (b_getv b x) in
        phi1 <- (if is_finite lb then g <- mk_relm fpow n RLeq (mk_const lb) (EVar y) ;; ret (finsert (mk_not g) phi) else ret phi) ;;
        phi2 <- (if is_finite ub then g <- mk_relm fpow n RLeq (EVar y) (mk_const ub) ;; ret (finsert (mk_not g) phi1) else ret phi1) ;;
        r <- mn_vars b xs' (S i) phi2 ;;
        ret ((x, EVar y) :: fst r, snd r)
    end.
  (** The loop over the constraints, 311-313 *)
  Fixpoint mn_cons (sub : list (var * expr)) (cs : list formula) (phi : list formula) : comp (list formula) :=
    match cs with
    | [] => ret phi
    | f :: cs' => g <- SubstituteF fpow n sub [] f ;; mn_cons sub cs' (finsert (mk_not g) phi)
    end.
  (** The loop over the objectives, 318-324: new_z_block, quantified and the z_i *)
  Fixpoint mn_objs (sub : list (var * expr)) (fs : list expr) (i : nat) (zb q : formula) : comp (formula * formula * list var) :=
    match fs with
    | [] => ret (zb, q, [])
    | f :: fs' =>
        let z := mkVar i CONTINUOUS in
        e <- mk_relm fpow n REq (EVar z) f ;;
        f' <- SubstituteE fpow n sub [] f ;;
        l <- mk_relm fpow n RLeq (EVar z) f' ;;
        r <- mn_objs sub fs' (S i) (mk_and zb e) (mk_or q l) ;;
        ret (fst (fst r), snd (fst r), z :: snd r)
    end.

  (** The x_vars of the objectives, 274-277 *)
  Definition mn_xvars (fs : list expr) : list var := fold_left (fun s f => vs_union s (vs_of (fvE f))) fs [].
  (** What Minimize computes: the quantified variables, the z_i and psi, 266-326 *)
  Definition mn_plan (fs : list expr) (stack : list formula) (b : box) (nx : nat) : comp (list var * list var * formula) :=
    p <- mn_close (S (length stack)) stack (mn_xvars fs) [] ;;
    let (xs, cs) := p in
    v <- mn_vars b xs nx [] ;;
    let (sub, phi) := v in
    phi' <- mn_cons sub cs phi ;;
    r <- mn_objs sub fs (nx + length xs) FTrue (mk_disj phi') ;;
    match r with (zb, q, zs) =>
      let ys := map (fun p => mn_y (fst p) (snd p)) (combine xs (seq nx (length xs))) in
      ret (ys, zs, mk_and zb (mk_forall (vs_of ys) q)) end.
  (** The calls made on the context, 295, 319-321 and 327 *)
  Definition mn_ops (p : list var * list var * formula) : list cop :=
    match p with (ys, zs, psi) =>
      map ONew ys ++ flat_map (fun z => [ONew z; ODeclare z false]) zs ++ [OAssert psi] end.
  (** Minimize on a context; [None]: the final Assert (or the box) fails *)
  Definition minimize (fs : list expr) (c : ctx) : comp (list cop) :=
    match cx_box c with
    | Some b => p <- mn_plan fs (sv_vec (cx_stack c)) b (cx_next c) ;; ret (mn_ops p)
    | None => (Ub, [])
    end.
  (** Context::Minimize(Expression) and Context::Maximize, context.cc:57-63 *)
  Definition minimize1 (f : expr) (c : ctx) : comp (list cop) := minimize [f] c.
  Definition maximize (f : expr) (c : ctx) : comp (list cop) := g <- mk_neg fpow n f ;; minimize [g] c.
End Min.
