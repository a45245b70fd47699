(** * Elimination of if-then-else terms

    Models dreal/util/if_then_else_eliminator.cc:65-347. *)
From Coq Require Import ZArith List Bool.
From Verif Require Import Dbl Syntax FormulaCons Nnf PredAbs.
Import ListNotations.

(** The arithmetic operators of [Expression] used to put a visited node together again.  They simplify
    (symbolic_expression.cc:330-811); the simplifier is a parameter here.
    - [k_add c ts]: the loop [ret = c; ret += c_i * e_i] of VisitAddition (108-118);
    - [k_mul c ts]: the loop [ret = c; ret *= pow(b_i, e_i)] of VisitMultiplication (120-130);
    - [k_un], [k_bin]: the function symbols, lines 132-236. *)
Record eops := {
  k_add : dbl -> list (expr * dbl) -> expr;
  k_mul : dbl -> list (expr * expr) -> expr;
  k_un : unop -> expr -> expr;
  k_bin : binop -> expr -> expr -> expr
}.

(** The value of the operators on a node whose children have been visited. *)
Definition rebuild (K : eops) (n : expr) : expr :=
  match n with
  | EAdd c ts => k_add K c ts
  | EMul c ts => k_mul K c ts
  | EUn o a => k_un K o a
  | EBin o a b => k_bin K o a b
  | _ => n
  end.

(** [it_next]: the global identifier counter of [Variable]; [it_vars]: ite_variables_; [it_added]:
    added_formulas_.  [it_nodes] and [it_cmps] are not in the program: they record, for the
    statements only, every node rebuilt and every comparison built during the run. *)
Record it_state := {
  it_next : nat;
  it_vars : list var;
  it_added : list formula;
  it_nodes : list expr;
  it_cmps : list (expr * expr)
}.
Definition it_init (n : nat) : it_state :=
  {| it_next := n; it_vars := []; it_added := []; it_nodes := []; it_cmps := [] |}.

Definition it_log_node (n : expr) (s : it_state) : it_state :=
  {| it_next := it_next s; it_vars := it_vars s; it_added := it_added s;
     it_nodes := n :: it_nodes s; it_cmps := it_cmps s |}.
Definition it_log_cmp (a b : expr) (s : it_state) : it_state :=
  {| it_next := it_next s; it_vars := it_vars s; it_added := it_added s;
     it_nodes := it_nodes s; it_cmps := (a, b) :: it_cmps s |}.
(** [const Variable new_var{..., CONTINUOUS}; ite_variables_.insert(new_var)], 241-244 *)
Definition it_fresh (s : it_state) : var * it_state :=
  let v := mkVar (it_next s) CONTINUOUS in
  (v, {| it_next := S (it_next s); it_vars := it_vars s ++ [v]; it_added := it_added s;
         it_nodes := it_nodes s; it_cmps := it_cmps s |}).
Definition it_push (f : formula) (s : it_state) : it_state :=
  {| it_next := it_next s; it_vars := it_vars s; it_added := it_added s ++ [f];
     it_nodes := it_nodes s; it_cmps := it_cmps s |}.

(** make_conjunction(vector), symbolic.cc:538-544 *)
Definition mk_conj_vec (fs : list formula) : formula := fold_left mk_and fs FTrue.

Section Ite.
  Variable fold : expr -> expr -> option dbl.
  Variable K : eops.

  Definition it_node (n : expr) (s : it_state) : expr * it_state := (rebuild K n, it_log_node n s).
  Definition it_rel (op : relop) (a b : expr) (s : it_state) : formula * it_state :=
    (mk_rel fold op a b, it_log_cmp a b s).

  (** The tail of VisitIfThenElse, 247-256: [v] is the new variable, [c] the visited condition, [e1]
      and [e2] the visited branches. *)
  Definition it_close (v : var) (tg eg : formula) (e1 e2 : expr) (s : it_state) : expr * it_state :=
    let (q1, s1) := it_rel REq (EVar v) e1 s in
    let s2 := it_push (mk_or (mk_not tg) q1) s1 in
    let (q2, s3) := it_rel REq (EVar v) e2 s2 in
    (EVar v, it_push (mk_or (mk_not eg) q2) s3).

  (** Process, 65-76, given the visited formula. *)
  Definition it_result (f f' : formula) (s : it_state) : formula :=
    if formula_eqb f f' && match it_added s with [] => true | _ => false end then f
    else mk_and f' (mk_conj_vec (it_added s)).

  (** Visit(Expression) (83-91), Visit* (93-257), Visit(Formula) and Visit* (265-347).
      C++ leaves the order of the two visits in [Visit(a) op Visit(b)] open; it only decides the
      numbering of the new variables.  A forall runs a new eliminator on the negated body (340-346);
      [!body] is inlined so that the recursion is structural. *)
  Fixpoint iteE (e : expr) (g : formula) (s : it_state) {struct e} : expr * it_state :=
    if hasIteE e then
      match e with
      | EConst _ | EReal _ _ _ | EVar _ | EUf _ _ => (e, s)
      | EAdd c ts =>
          let (ts', s') :=
            (fix go l s := match l with
               | [] => ([], s)
               | (a, k) :: l' => let (a', s1) := iteE a g s in
                                 let (r, s2) := go l' s1 in ((a', k) :: r, s2)
               end) ts s in
          it_node (EAdd c ts') s'
      | EMul c ts =>
          let (ts', s') :=
            (fix go l s := match l with
               | [] => ([], s)
               | (a, b) :: l' => let (a', s1) := iteE a g s in
                                 let (b', s2) := iteE b g s1 in
                                 let (r, s3) := go l' s2 in ((a', b') :: r, s3)
               end) ts s in
          it_node (EMul c ts') s'
      | EUn o a => let (a', s') := iteE a g s in it_node (EUn o a') s'
      | EBin o a b => let (a', s1) := iteE a g s in
                      let (b', s2) := iteE b g s1 in it_node (EBin o a' b') s2
      | EIte c a b =>                                                     (* 238-257 *)
          let (v, s0) := it_fresh s in
          let (c', s1) := iteF c g s0 in
          let tg := mk_and g c' in
          let eg := mk_and g (mk_not c') in
          let (a', s2) := iteE a tg s1 in
          let (b', s3) := iteE b eg s2 in
          it_close v tg eg a' b' s3
      end
    else (e, s)
  with iteF (f : formula) (g : formula) (s : it_state) {struct f} : formula * it_state :=
    match f with
    | FTrue | FFalse | FVar _ => (f, s)
    | FRel op a b => let (a', s1) := iteE a g s in
                     let (b', s2) := iteE b g s1 in it_rel op a' b' s2
    | FAnd fs => let (ops, s') := smap (fun h s => iteF h g s) fs s in (mk_conj (fset ops), s')
    | FOr fs => let (ops, s') := smap (fun h s => iteF h g s) fs s in (mk_disj (fset ops), s')
    | FNot h => let (h', s') := iteF h g s in (mk_not h', s')
    | FForall vs h =>                                                     (* 324-346 *)
        let s0 := {| it_next := it_next s; it_vars := []; it_added := [];
                     it_nodes := it_nodes s; it_cmps := it_cmps s |} in
        let (h', s1) :=
          match h with
          | FTrue => (FFalse, s0)
          | FFalse => (FTrue, s0)
          | FNot k => iteF k FTrue s0
          | _ => let (k', s') := iteF h FTrue s0 in (mk_not k', s')
          end in
        let eliminated := it_result (mk_not h) h' s1 in
        (mk_forall (vs ++ it_vars s1) (nnf fold false (mk_not eliminated) true),
         {| it_next := it_next s1; it_vars := it_vars s; it_added := it_added s;
            it_nodes := it_nodes s1; it_cmps := it_cmps s1 |})
    end.

  (** Process, 65-76: the formula that replaces [f] and the final state; [n] is the identifier
      counter.  [variables()] (78-81) is [it_vars]. *)
  Definition ite_process (f : formula) (n : nat) : formula * it_state :=
    let (f', s) := iteF f FTrue (it_init n) in (it_result f f' s, s).
End Ite.
