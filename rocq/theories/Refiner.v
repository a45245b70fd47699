(** * Refining counterexamples by local optimisation

    Models contractor/counterexample_refiner.cc, the NLopt wrapper optimization/nlopt_optimizer.cc and IsDifferentiable
    (symbolic/symbolic.cc:412-512, 530-532).  NLopt itself is a function [nl] from the problem, the values of the other variables and the
    starting point to an outcome.  Left out: the tolerances handed to NLopt, the double arithmetic with which it evaluates the expressions
    (optimization/cached_expression.cc), and that two calls with the same arguments might end differently (the time limit). *)
From Coq Require Import ZArith List Bool.
From Flocq Require Import IEEE754.BinarySingleNaN.
From Verif Require Import Dbl Syntax FormulaCons MathConv Interval IEval ExprAlg DeltaStr Nnf VarSet Filter Theory Scoped Context Forall.
Import ListNotations.
Local Open Scope comp_scope.

(** IsDifferentiableVisitor on expressions, symbolic.cc:457-503 *)
Fixpoint is_diffE (e : expr) : bool :=
  match e with
  | EConst _ | EReal _ _ _ | EVar _ => true
  | EAdd _ ts => forallb (fun p => is_diffE (fst p)) ts
  | EMul _ ts => forallb (fun p => is_diffE (fst p) && is_diffE (snd p)) ts
  | EUn UAbs _ | EBin BMin _ _ | EBin BMax _ _ | EIte _ _ _ | EUf _ _ => false
  | EUn _ a => is_diffE a
  | EBin _ a b => is_diffE a && is_diffE b
  end.
(** and on formulas, 422-455 *)
Fixpoint is_diffF (f : formula) : bool :=
  match f with
  | FTrue | FFalse | FVar _ => true
  | FRel _ a b => is_diffE a && is_diffE b
  | FAnd fs | FOr fs => forallb is_diffF fs
  | FNot g => is_diffF g
  | FForall _ _ => false
  end.

(** An NLopt problem: the algorithm (LD_SLSQP or LN_COBYLA), the bounds of the decision variables, the objective to minimise, and the
    constraints c = 0 ([true]) or c <= 0 ([false]) *)
Record nlprob := mkNl { nl_slsqp : bool; nl_box : box; nl_obj : option expr; nl_cons : list (bool * expr) }.
Definition nl_add (p : nlprob) (eq : bool) (c : expr) : nlprob := mkNl (nl_slsqp p) (nl_box p) (nl_obj p) (nl_cons p ++ [(eq, c)]).

Section Refiner.
  Variables (fold : expr -> expr -> option dbl) (fpow : dbl -> dbl -> dbl) (n : nat).
  Notation msub := (mk_sub fpow n).

  (** NloptOptimizer::AddRelationalConstraint, nlopt_optimizer.cc:131-168 *)
  Definition add_rel (f : formula) (p : nlprob) : comp nlprob :=
    match f with
    | FRel RGt a b | FRel RGeq a b => c <- msub b a ;; ret (nl_add p false c)
    | FRel RLt a b | FRel RLeq a b => c <- msub a b ;; ret (nl_add p false c)
    | FRel REq a b => c <- msub a b ;; ret (nl_add p true c)
    | _ => (ExprAlg.Throw, [])
    end.
  (** NloptOptimizer::AddConstraint, 110-129 *)
  Fixpoint add_con (f : formula) (p : nlprob) : comp nlprob :=
    match f with
    | FAnd fs => (fix go l p := match l with [] => ret p | g :: l' => p' <- add_con g p ;; go l' p' end) fs p
    | FRel _ _ _ => add_rel f p
    | FNot (FRel o a b) => add_rel (nnf_convert fold (FRel o a b) false) p
    | _ => (ExprAlg.Throw, [])
    end.

  (** ** The constructor *)
  (** The operands of the query, counterexample_refiner.cc:42-57 *)
  Definition cr_query (q : formula) : list formula := match q with FAnd fs => fs | _ => [q] end.
  (** Box{forall_vec_}, box.cc:55-64 *)
  Definition cr_box (fvs : list var) : box := fold_left b_add fvs box0.
  (** The loop that filters the bounds, 42-57 *)
  Fixpoint cr_filter (fs : list formula) (b : box) : option (box * list formula) :=
    match fs with
    | [] => Some (b, [])
    | f :: fs' => IEval.bind (filter_assertion f b) (fun rb => IEval.bind (cr_filter fs' (snd rb)) (fun q =>
        Some (fst q, match fst rb with NotFiltered => f :: snd q | _ => snd q end)))
    end.
  (** The addition to the objective, 77-96 *)
  Definition cr_obj (fvs : list var) (f : formula) (obj : expr) : comp expr :=
    if forallb (fun v => mem_var v fvs) (fvF f) then ret obj
    else match f with
         | FRel RGt a b | FRel RGeq a b => d <- msub b a ;; mk_add fpow n obj d
         | FRel RLt a b | FRel RLeq a b => d <- msub a b ;; mk_add fpow n obj d
         | _ => ret obj
         end.
  (** The loop over the remaining formulas, 75-99 *)
  Fixpoint cr_loop (fvs : list var) (fs : list formula) (obj : expr) (p : nlprob) : comp (expr * nlprob) :=
    match fs with
    | [] => ret (obj, p)
    | f :: fs' => obj' <- cr_obj fvs f obj ;; p' <- add_rel f p ;; cr_loop fvs fs' obj' p'
    end.
  (** is_zero *)
  Definition is_zeroE (e : expr) : bool := match e with EConst c => deq c dzero | _ => false end.
  (** CounterexampleRefiner::CounterexampleRefiner, 29-103; [fvs] are the quantified variables in the order of the set.
      [None]: opt_ is null *)
  Definition cr_new (q : formula) (fvs : list var) : comp (option nlprob) :=
    match cr_filter (cr_query q) (cr_box fvs) with
    | None => (ExprAlg.Throw, [])
    | Some (_, []) => ret None
    | Some (b, fs) =>
        r <- cr_loop fvs fs (EConst dzero) (mkNl (is_diffF q) b None []) ;;
        ret (Some (if is_zeroE (fst r) then snd r else mkNl (nl_slsqp (snd r)) (nl_box (snd r)) (Some (fst r)) (nl_cons (snd r))))
    end.

  (** ** Refine, 105-163 *)
  Variable mid : dbl -> dbl -> dbl.
  (** Interval::mid() as a double *)
  Definition i_midd (i : ival) : dbl := match i with IEmpty => dnan | IV l u => mid l u end.
  (** NLopt.  [None]: an exception; the flag: the result is one of SUCCESS ... ROUNDOFF_LIMITED; the vector as NLopt leaves it *)
  Variable nl : nlprob -> list (var * dbl) -> list dbl -> option (bool * list dbl).
  (** The starting point and the environment, 112-120 (every quantified variable is in the box, so every entry of init_ is set) *)
  Definition cr_start (fvs : list var) (b : box) : list dbl := map (fun v => i_midd (b_getv b v)) (filter (fun v => mem_var v fvs) (bvars b)).
  Definition cr_env (fvs : list var) (b : box) : list (var * dbl) := map (fun v => (v, i_midd (b_getv b v))) (filter (fun v => negb (mem_var v fvs)) (bvars b)).
  (** The loop that copies the solution, 148-151 *)
  Definition cr_copy (fvs : list var) (x : list dbl) (b : box) : box := fold_left (fun b q => b_setv b (fst q) (i_point (snd q))) (combine fvs x) b.
  Definition cr_refine (o : option nlprob) (fvs : list var) (b : box) : box :=
    match o with
    | None => b
    | Some p => match nl p (cr_env fvs b) (cr_start fvs b) with Some (true, x) => cr_copy fvs x b | _ => b end
    end.
End Refiner.

(** The query of ContractorForall and the refiner it builds when local optimisation is on: contractor_forall.h:81-82, 125-129 *)
Section Query.
  Variables (fold : expr -> expr -> option dbl) (fpow : dbl -> dbl -> dbl) (n k : nat).
  Definition lo_query (f : formula) (eps : dbl) : comp formula :=
    g <- DeltaStrengthen fpow n k (mk_not (q_body f)) eps ;; ret (nnf_convert fold g true).
  Definition lo_refiner (f : formula) (eps : dbl) : comp (option nlprob) :=
    q <- lo_query f eps ;; cr_new fpow n q (q_vars f).
End Query.
