(** * Specification of the context: the problem that each check is about

    Independent of the solver's data structures: a history of calls determines, for every check, the
    declared variables with their domains and the assertions in force. *)
From Coq Require Import ZArith Reals List Bool.
From Flocq Require Import IEEE754.BinarySingleNaN.
From Verif Require Import Dbl Syntax Sem FormulaCons Interval IEval Contr Icp Filter Theory Regular Wff IteElim SpecIte Sat Context.
Import ListNotations.

Record problem := { p_doms : list (var * (R -> Prop)); p_asserts : list formula }.
Definition p_empty : problem := {| p_doms := []; p_asserts := [] |}.
Definition declared (p : problem) (v : var) : Prop := In v (map fst (p_doms p)).

(** Domain of a variable declared without bounds.  INTEGER variables are limited to the range of int. *)
Definition dom0 (t : vtype) : R -> Prop :=
  match t with
  | BOOLEAN | BINARY => fun x => (0 <= x <= 1)%R
  | INTEGER => fun x => (-2147483647 <= x <= 2147483647)%R
  | CONTINUOUS => fun _ => True
  end.
Definition between (l u : dbl) : R -> Prop := fun x => ext_le (d2e l) (Fin x) /\ ext_le (Fin x) (d2e u).

Definition declare (v : var) (p : problem) : problem :=
  if mem_var v (map fst (p_doms p)) then p else {| p_doms := p_doms p ++ [(v, dom0 (vty v))]; p_asserts := p_asserts p |}.
Definition set_domain (v : var) (d : R -> Prop) (p : problem) : problem :=
  {| p_doms := map (fun q => if var_eqb v (fst q) then (v, d) else q) (p_doms p); p_asserts := p_asserts p |}.
Definition add_assert (f : formula) (p : problem) : problem := {| p_doms := p_doms p; p_asserts := p_asserts p ++ [f] |}.

(** A (regular) solution: typed, inside the domains, every assertion defined and true. *)
Definition solution (M : interp) (D : pdom) (p : problem) (rho : env) : Prop :=
  well_typed rho /\ (forall v d, In (v, d) (p_doms p) -> d (rho v)) /\
  forall f, In f (p_asserts p) -> regular M D f rho /\ holds M f rho.

(** The effect of a call on the current problem and the saved ones. *)
Definition p_step (o : cop) (st : problem * list problem) : problem * list problem :=
  let (p, saved) := st in
  match o with
  | ODeclare v _ => (declare v p, saved)
  | ODeclareDom v l u _ => (set_domain v (between l u) (declare v p), saved)
  | OSetInterval v l u => (set_domain v (between l u) p, saved)
  | OAssert f => (add_assert f p, saved)
  | OPush => (p, p :: saved)
  | OPop => match saved with [] => st | q :: r => (q, r) end
  | ONew _ | OCheck _ => st
  end.
(** The problems of the checks of a history, in order. *)
Fixpoint problems (ops : list cop) (st : problem * list problem) : list problem :=
  match ops with
  | [] => []
  | OCheck _ as o :: r => fst st :: problems r (p_step o st)
  | o :: r => problems r (p_step o st)
  end.

(** ** Histories covered by the theorems *)
Section Adm.
  Variables (M : interp) (D : pdom) (fold : expr -> expr -> option dbl) (K : eops).
  Variable n : nat.    (* identifiers below [n] were handed out before *)
  Variable qa : Prop.  (* may assertions be quantified? *)
  Definition known (news : list var) (v : var) : Prop := vid v < n \/ In v news.
  (** Rebuilding a node keeps literals finite and adds no variable and no if-then-else. *)
  Definition node_fin (x : expr) : Prop :=
    (finE x -> finE (rebuild K x)) /\ incl (fvE (rebuild K x)) (fvE x) /\ (hasIteE x = false -> hasIteE (rebuild K x) = false).
  (** if-then-else elimination of [f] rebuilds terms and comparisons exactly (see C16, C19) *)
  Definition ite_exact (f : formula) : Prop := forall m,
    (forall x, In x (it_nodes (snd (ite_process fold K f m))) -> node_exact M D K x /\ node_fin x) /\
    (forall a b, In (a, b) (it_cmps (snd (ite_process fold K f m))) -> cmp_exact M fold a b).
  Definition dom_ok (v : var) (l u : dbl) : Prop :=
    is_nan l = false /\ is_nan u = false /\
    (is_int_type (vty v) = true -> forall x, between l u x -> (Rabs x <= 9007199254740991)%R).
  (** Giving a declared variable a new domain: before the first assertion, or a smaller domain. *)
  Definition redomain_ok (p : problem) (v : var) (l u : dbl) : Prop :=
    p_asserts p = [] \/ forall d x, In (v, d) (p_doms p) -> between l u x -> d x.
  (** A call that the theorems cover, in the current problem [p]. *)
  Definition op_ok_q (news : list var) (p : problem) (o : cop) : Prop :=
    match o with
    | ODeclare v _ => known news v
    | ODeclareDom v l u _ => known news v /\ (declared p v -> redomain_ok p v l u) /\ dom_ok v l u
    | OSetInterval v l u => declared p v /\ redomain_ok p v l u /\ dom_ok v l u
    | OAssert f => wfF (fun v => declared p v /\ vty v <> BOOLEAN) (fun v => declared p v /\ vty v = BOOLEAN) (fun v => qa /\ known news v) f /\ ite_exact f
    | ONew _ | OPush | OPop | OCheck _ => True
    end.
  Definition news_step (o : cop) (news : list var) : list var := match o with ONew v => v :: news | _ => news end.
  Fixpoint admissible_q (ops : list cop) (news : list var) (st : problem * list problem) : Prop :=
    match ops with
    | [] => True
    | o :: r => op_ok_q news (fst st) o /\ admissible_q r (news_step o news) (p_step o st)
    end.
End Adm.
(** Histories without quantifiers. *)
Definition op_ok (M : interp) (D : pdom) (fold : expr -> expr -> option dbl) (K : eops) (n : nat) := op_ok_q M D fold K n False.
Definition admissible (M : interp) (D : pdom) (fold : expr -> expr -> option dbl) (K : eops) (n : nat) := admissible_q M D fold K n False.
