(** * Formula constructors

    Models third_party/.../symbolic/symbolic_formula.cc:173-559 and
    dreal/symbolic/symbolic.cc:39-143.

    Simplification: operand sets ([std::set<Formula>], ordered by [Less]) are duplicate-free lists in
    insertion order.  The rvalue overloads (operator&&(Formula&&, ...), lines 264-282 and 392-410)
    only choose which operand is merged into which; they are [mk_and]/[mk_or] with arguments swapped. *)
From Coq Require Import ZArith List Bool.
From Flocq Require Import IEEE754.BinarySingleNaN.
From Verif Require Import Dbl Syntax.
Import ListNotations.

(** [std::set<Formula>::insert] *)
Definition fmem (f : formula) (s : list formula) : bool := existsb (formula_eqb f) s.
Definition finsert (f : formula) (s : list formula) : list formula :=
  if fmem f s then s else s ++ [f].
Definition finserts (fs s : list formula) : list formula := fold_left (fun acc g => finsert g acc) fs s.
(** [std::set<Formula>{...}] built from a sequence; also [map] of symbolic.cc:62-68. *)
Definition fset (fs : list formula) : list formula := finserts fs [].

Definition is_true (f : formula) : bool := match f with FTrue => true | _ => false end.
Definition is_false (f : formula) : bool := match f with FFalse => true | _ => false end.
Definition is_conj (f : formula) : bool := match f with FAnd _ => true | _ => false end.
Definition is_disj (f : formula) : bool := match f with FOr _ => true | _ => false end.

(** MergeConjunction, symbolic_formula.cc:178-186 *)
Definition merge_conj (f : formula) (s : list formula) : list formula :=
  match f with FAnd gs => finserts gs s | _ => finsert f s end.
(** MergeDisjunction, symbolic_formula.cc:306-314 *)
Definition merge_disj (f : formula) (s : list formula) : list formula :=
  match f with FOr gs => finserts gs s | _ => finsert f s end.

(** Formula::make_conjunction(f1, f2), symbolic_formula.cc:190-223 *)
Definition mk_and (f1 f2 : formula) : formula :=
  if is_false f1 then f1
  else if is_false f2 then FFalse
  else if is_true f1 then f2
  else if is_true f2 then f1
  else if formula_eqb f1 f2 then f1
  else match f1 with
       | FAnd gs => FAnd (merge_conj f2 gs)
       | _ => match f2 with
              | FAnd gs => FAnd (merge_conj f1 gs)
              | _ => FAnd (fset [f1; f2])
              end
       end.

(** Formula::make_disjunction(f1, f2), symbolic_formula.cc:318-351 *)
Definition mk_or (f1 f2 : formula) : formula :=
  if is_true f1 then f1
  else if is_true f2 then FTrue
  else if is_false f1 then f2
  else if is_false f2 then f1
  else if formula_eqb f1 f2 then f1
  else match f1 with
       | FOr gs => FOr (merge_disj f2 gs)
       | _ => match f2 with
              | FOr gs => FOr (merge_disj f1 gs)
              | _ => FOr (fset [f1; f2])
              end
       end.

(** The loop of make_conjunction(set), symbolic_formula.cc:227-247; [None] = short-circuit to False *)
Fixpoint conj_loop (fs : list formula) (ops : list formula) : option (list formula) :=
  match fs with
  | [] => Some ops
  | f :: fs' =>
      if is_false f then None
      else if is_true f then conj_loop fs' ops
      else match f with
           | FAnd gs => conj_loop fs' (finserts gs ops)
           | _ => conj_loop fs' (finsert f ops)
           end
  end.
(** make_conjunction(set), symbolic_formula.cc:225-257 *)
Definition mk_conj (fs : list formula) : formula :=
  match conj_loop fs [] with
  | None => FFalse
  | Some [] => FTrue
  | Some [f] => f
  | Some ops => FAnd ops
  end.

Fixpoint disj_loop (fs : list formula) (ops : list formula) : option (list formula) :=
  match fs with
  | [] => Some ops
  | f :: fs' =>
      if is_true f then None
      else if is_false f then disj_loop fs' ops
      else match f with
           | FOr gs => disj_loop fs' (finserts gs ops)
           | _ => disj_loop fs' (finsert f ops)
           end
  end.
(** make_disjunction(set), symbolic_formula.cc:353-385 *)
Definition mk_disj (fs : list formula) : formula :=
  match disj_loop fs [] with
  | None => FTrue
  | Some [] => FFalse
  | Some [f] => f
  | Some ops => FOr ops
  end.

(** operator!, symbolic_formula.cc:432-444 *)
Definition mk_not (f : formula) : formula :=
  match f with
  | FTrue => FFalse
  | FFalse => FTrue
  | FNot g => g
  | _ => FNot f
  end.

(** imply, iff: symbolic.cc:39-52; operator==(Formula,Formula): symbolic_formula.cc:478-480 *)
Definition mk_imply (f1 f2 : formula) : formula := mk_or (mk_not f1) f2.
Definition mk_iff (f1 f2 : formula) : formula := mk_and (mk_imply f1 f2) (mk_imply f2 f1).
Definition mk_feq (f1 f2 : formula) : formula := mk_and (mk_or (mk_not f1) f2) (mk_or (mk_not f2) f1).
(** operator!=(Formula,Formula): symbolic_formula.cc:515 *)
Definition mk_fneq (f1 f2 : formula) : formula := mk_not (mk_feq f1 f2).

(** forall(vars, f): symbolic_formula.cc:173-175 *)
Definition mk_forall (vs : list var) (f : formula) : formula :=
  FForall (filter (fun v => mem_var v (fvF f)) vs) f.

(** Relational operators on expressions, symbolic_formula.cc:469-559.
    [fold e1 e2] is the value of [e1 - e2] when that difference simplifies to a constant node
    (diff.get_kind() == Constant); the simplifier itself is modelled in ExprAlg.v. *)
Section Rel.
  Variable fold : expr -> expr -> option dbl.

  (** The test applied to the folded constant, e.g. [diff.Evaluate() == 0.0] at line 473. *)
  Definition relop_on (op : relop) (c : dbl) : bool :=
    match op with
    | REq => deq c dzero
    | RNeq => negb (deq c dzero)
    | RLt => dlt c dzero
    | RLeq => dle c dzero
    | RGt => dlt dzero c
    | RGeq => dle dzero c
    end.

  Definition mk_rel (op : relop) (e1 e2 : expr) : formula :=
    match fold e1 e2 with
    | Some c => if relop_on op c then FTrue else FFalse
    | None => FRel op e1 e2
    end.
End Rel.

(** is_relational / is_atomic / is_clause / get_clauses / is_cnf: symbolic.cc:70-143 *)
Definition is_relational (f : formula) : bool := match f with FRel _ _ _ => true | _ => false end.
Definition is_fvar (f : formula) : bool := match f with FVar _ => true | _ => false end.
Definition is_atomic (f : formula) : bool :=
  match f with
  | FAnd _ | FOr _ => false
  | FNot g => is_fvar g || is_relational g
  | _ => true
  end.
Definition is_clause (f : formula) : bool :=
  if is_atomic f then true
  else match f with
       | FNot g => is_atomic g
       | FAnd _ => false
       | FOr fs => forallb is_atomic fs
       | _ => false
       end.
Definition get_clauses (f : formula) : list formula :=
  match f with FAnd fs => fs | _ => [f] end.
Definition is_cnf (f : formula) : bool :=
  if is_atomic f then true
  else match f with
       | FOr _ => is_clause f
       | FAnd fs => forallb is_clause fs
       | _ => false   (* DREAL_UNREACHABLE: a negated forall or negated compound *)
       end.

(** operator!(RelationalOperator): symbolic.cc:566-587 *)
Definition neg_relop (op : relop) : relop :=
  match op with
  | REq => RNeq | RNeq => REq | RGt => RLeq | RGeq => RLt | RLt => RGeq | RLeq => RGt
  end.
