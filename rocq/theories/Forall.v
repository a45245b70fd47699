(** * Universally quantified constraints: the evaluator and the contractor

    Models solver/forall_formula_evaluator.cc and contractor/contractor_forall.h.  Both keep a Context of their own in which the negation
    of the quantified formula, strengthened by epsilon, is asserted; a box is examined by setting the domains there and checking.
    One thread: the copies per thread (contexts_, ctcs_) are each used by one thread only (C42). *)
From Coq Require Import ZArith List Bool.
From Flocq Require Import IEEE754.BinarySingleNaN.
From Verif Require Import Dbl Syntax FormulaCons MathConv Interval IEval ExprAlg DeltaStr Nnf VarSet Contr IbexConv Theory Scoped IteElim Sat Context.
Import ListNotations.
Local Open Scope comp_scope.

(** get_quantified_variables, get_quantified_formula (undefined unless [f] is quantified; both classes are built for such formulas only) *)
Definition q_vars (f : formula) : list var := match f with FForall vs _ => vs | _ => [] end.
Definition q_body (f : formula) : formula := match f with FForall _ g => g | _ => f end.

Section Inner.
  Variable fold : expr -> expr -> option dbl.
  Variable K : eops.
  Variable pico : pico_t.
  Variable T : nat -> box -> list formula -> option tres.     (* the inner context's theory solver, at the inner precision *)
  Variable mid : dbl -> dbl -> dbl.
  Variable precision : dbl.                                    (* inner_delta *)
  Variables (fpow : dbl -> dbl -> dbl) (n k : nat).            (* of DeltaStrengthen *)
  Notation run := (cx_run fold K pico T mid precision).

  (** Copying a box into the inner context: forall_formula_evaluator.cc:96-98, contractor_forall.h:202-206 *)
  Definition inner_sets (b : box) : list cop := map (fun v => OSetInterval v (ilb (b_getv b v)) (iub (b_getv b v))) (bvars b).
  Definition inner_query (b : box) (fuel : nat) : list cop := inner_sets b ++ [OCheck fuel].
  (** Overwriting the dimensions of [b]'s variables in [m]: forall_formula_evaluator.cc:104-106, contractor_forall.h:149-151 *)
  Definition overwrite (b m : box) : box := fold_left (fun m v => b_setv m v (b_getv b v)) (bvars b) m.

  (** ** The evaluator *)
  (** BuildFormulaEvaluators, 33-60 *)
  Definition fe_disjuncts (f : formula) : list formula := match q_body f with FOr fs => fs | g => [g] end.
  (** The constructor, 69-92 *)
  Definition fe_setup (f : formula) (eps : dbl) : comp (list cop) :=
    g <- DeltaStrengthen fpow n k (mk_not (q_body f)) eps ;;
    ret (map (fun v => ODeclare v true) (vs_of (fvF f)) ++ map (fun v => ODeclare v true) (q_vars f) ++ [OAssert g]).
  (** Interval::mag() *)
  Definition i_mag (i : ival) : dbl := match i with IEmpty => dnan | IV l u => dmaxf (dabs l) (dabs u) end.
  (** The loop over the disjuncts, 107-119 *)
  Fixpoint fe_diam (ev : formula -> box -> option (etype * ival)) (fs : list formula) (m : box) (acc : dbl) : option dbl :=
    match fs with
    | [] => Some acc
    | f :: fs' => IEval.bind (ev f m) (fun r =>
        let d := match fst r with UNSAT => i_mag (snd r) | _ => i_diam (snd r) end in
        fe_diam ev fs' m (if dgt d acc then d else acc))
    end.
  (** operator(), 94-128 *)
  Definition fe_eval (ev : formula -> box -> option (etype * ival)) (f : formula) (fuel : nat) (b : box) (c : ctx) : option (ctx * (etype * ival)) :=
    match run (inner_query b fuel) c with
    | Some (c', [None]) => Some (c', (VALID, mk_ival dzero dzero))
    | Some (c', [Some m]) => IEval.bind (fe_diam ev (fe_disjuncts f) (overwrite b m) dzero) (fun d => Some (c', (UNKNOWN, mk_ival dzero d)))
    | _ => None
    end.
  (** The life of an evaluator: construction and evaluations of the boxes [bs] in turn *)
  Fixpoint fe_evals (ev : formula -> box -> option (etype * ival)) (f : formula) (fuel : nat) (bs : list box) (c : ctx) : option (ctx * list (etype * ival)) :=
    match bs with
    | [] => Some (c, [])
    | b :: bs' => IEval.bind (fe_eval ev f fuel b c) (fun p => IEval.bind (fe_evals ev f fuel bs' (fst p)) (fun q => Some (fst q, snd p :: snd q)))
    end.
  Definition fe_life (ev : formula -> box -> option (etype * ival)) (f : formula) (eps : dbl) (nx fuel : nat) (bs : list box) : comp (option (ctx * list (etype * ival))) :=
    ops <- fe_setup f eps ;;
    ret (match run ops (cx_init nx) with Some (c, []) => fe_evals ev f fuel bs c | _ => None end).

  (** ** The contractor *)
  Variables (esub : expr -> expr -> expr) (eneg : expr -> expr) (m : nat).    (* of the conversion to IBEX *)
  Variables (Orc : oracles) (term : list ival -> list ival -> bool) (pn : nat).
  Variable use_polytope : bool.                                                (* config.use_polytope_in_forall() *)
  Variable refine : box -> box.                                                (* CounterexampleRefiner::Refine; the identity without local optimisation *)

  (** The constructor, 75-130: the calls made on the inner context, and contractor_ *)
  Definition fc_asserts (g : formula) : list cop := match g with FAnd fs => map OAssert fs | _ => [OAssert g] end.
  Definition fc_setup (f : formula) (vars : list var) (eps : dbl) : comp (list cop * option contractor) :=
    g <- DeltaStrengthen fpow n k (mk_not (q_body f)) eps ;;
    ret (map (fun v => ODeclare v true) vars ++ map (fun v => ODeclare v true) (q_vars f) ++ fc_asserts (nnf_convert fold g true),
         generate esub eneg (vars ++ q_vars f) use_polytope fold m (q_body f)).

  (** Interval(double) of mid(); the midpoint of the empty interval is NaN, which is how filib represents the empty interval *)
  Definition i_mid (i : ival) : ival := match i with IEmpty => IEmpty | IV l u => i_point (mid l u) end.
  (** The comparison of the dimensions, 169-175 *)
  Definition copy_dims (size : nat) (old new : list ival) : list ival :=
    map (fun i => if Nat.ltb i size && negb (i_eqb (nth i old IEmpty) (nth i new IEmpty)) then nth i new IEmpty else nth i old IEmpty) (seq 0 (length old)).
  Definition dims_differ (size : nat) (old new : list ival) : bool := existsb (fun i => negb (i_eqb (nth i old IEmpty) (nth i new IEmpty))) (seq 0 size).
  (** PruneWithCounterexample, 144-182: the new box, and whether the loop ends *)
  Definition fc_with (f : formula) (ctc : contractor) (b ce : box) : option (box * bool) :=
    let m1 := overwrite b ce in
    let m2 := fold_left (fun m v => b_setv m v (i_mid (b_getv ce v))) (q_vars f) m1 in
    IEval.bind (prune Orc term pn ctc (cs_new m2 None)) (fun s =>
      if b_empty (cs_box s) then Some (b_set_empty b, true)
      else Some (mkBox (bvars b) (copy_dims (b_size b) (bvals b) (bvals (cs_box s))), negb (dims_differ (b_size b) (bvals b) (bvals (cs_box s))))).
  (** Prune, 187-232; [rounds] bounds the loop (the alternation of stack_left_box_first is covered by the inner solver's choice per call) *)
  Fixpoint fc_loop (f : formula) (ctc : contractor) (fuel rounds : nat) (b : box) (c : ctx) : option (ctx * box) :=
    match rounds with
    | O => None
    | S r =>
        match run (inner_query b fuel) c with
        | Some (c', [None]) => Some (c', b)
        | Some (c', [Some ce]) => IEval.bind (fc_with f ctc b (refine ce)) (fun p => if snd p then Some (c', fst p) else fc_loop f ctc fuel r (fst p) c')
        | _ => None
        end
    end.
  (** The life of a contractor: construction and pruning of the boxes [bs] in turn *)
  Fixpoint fc_prunes (f : formula) (ctc : contractor) (fuel rounds : nat) (bs : list box) (c : ctx) : option (ctx * list box) :=
    match bs with
    | [] => Some (c, [])
    | b :: bs' => IEval.bind (fc_loop f ctc fuel rounds b c) (fun p => IEval.bind (fc_prunes f ctc fuel rounds bs' (fst p)) (fun q => Some (fst q, snd p :: snd q)))
    end.
  Definition fc_life (f : formula) (vars : list var) (eps : dbl) (nx fuel rounds : nat) (bs : list box) : comp (option (ctx * list box)) :=
    s <- fc_setup f vars eps ;;
    ret (IEval.bind (snd s) (fun ctc => match run (fst s) (cx_init nx) with Some (c, []) => fc_prunes f ctc fuel rounds bs c | _ => None end)).
End Inner.
