(** * The theory solver

    Models contractor_status.cc (GenerateExplanation) and solver/theory_solver.cc (BuildContractor,
    CheckSat).  The contractor and evaluator caches are left out here: every check builds its
    contractors and evaluators anew (the caches are modelled separately). *)
From Coq Require Import ZArith Reals List Bool.
From Flocq Require Import IEEE754.BinarySingleNaN.
From Verif Require Import Dbl Syntax Sem Interval MathConv IEval Contr IbexConv Icp IcpPar Filter.
Import ListNotations.

(** HaveIntersection, symbolic.cc:145-162, on sets of variables *)
Definition have_int (a b : list var) : bool := existsb (fun v => mem_var v b) a.

(** GenerateExplanation, contractor_status.cc:112-162: one pass of the while loop adds every used
    constraint sharing a variable with the explanation built so far (std::set insertion during the
    iteration may reach further constraints in the same pass; the loop ends at the same closure). *)
Definition expl_new (used expl : list formula) : list formula :=
  filter (fun g => negb (mem_form g expl) && existsb (fun f => have_int (fvF f) (fvF g)) expl) used.
Fixpoint expl_loop (n : nat) (used expl : list formula) : list formula :=
  match n with
  | O => expl
  | S n' => match expl_new used expl with [] => expl | l => expl_loop n' used (expl ++ l) end
  end.
Definition explanation (wit : list var) (used : list formula) : list formula :=
  let init := filter (fun f => match fvF f with [] => true | _ => have_int wit (fvF f) end) used in
  match wit with
  | [] => init
  | _ => expl_loop (S (length used)) used init
  end.

(** operator==(Box, Box), box.cc:268-273, for boxes over the same variables (IBEX compares empty
    vectors as equal) *)
Definition b_eqb (a b : box) : bool :=
  if b_empty a || b_empty b then b_empty a && b_empty b
  else forallb (fun p => i_eqb (fst p) (snd p)) (combine (bvals a) (bvals b)).

Section Build.
  Variables (esub : expr -> expr -> expr) (eneg : expr -> expr).
  (** bound on the depth of the expressions converted *)
  Variable n : nat.
  Variables (use_worklist use_polytope : bool).

  (** theory_solver.cc:176-195 *)
  Definition lit_ctc (vars : list var) (f : formula) : option contractor :=
    if is_forall f then Some (mk_fix [CForall f]) else mk_fwd esub eneg vars n f.
  (** the loop of BuildContractor, 152-201; the second component is absent when it returns {} *)
  Fixpoint build_loop (fs : list formula) (s : cstat) (acc : list contractor) : option (cstat * option (list contractor)) :=
    match fs with
    | [] => Some (s, Some acc)
    | f :: fs' =>
        bind (filter_assertion f (cs_box s)) (fun p =>
          match p with (r, b') =>
            let s1 := cs_with_box s b' in
            match r with
            | NotFiltered =>
                let s2 := if b_eqb (cs_box s) b' then s1 else add_used s1 f in
                bind (lit_ctc (bvars b') f) (fun c => build_loop fs' s2 (acc ++ [c]))
            | FilteredWithChange =>
                let s2 := add_used s1 f in
                if b_empty b' then Some (fold_left add_witness (fvF f) s2, None) else build_loop fs' s2 acc
            | FilteredWithoutChange => build_loop fs' s1 acc
            end
          end)
    end.
  (** BuildContractor, 141-225 *)
  Definition build_contractor (fs : list formula) (s : cstat) : option (cstat * option contractor) :=
    match fs with
    | [] => Some (s, Some (mk_integer (cs_box s)))
    | _ =>
        bind (build_loop fs s []) (fun p =>
          match p with
          | (s1, None) => Some (s1, None)
          | (s1, Some l) =>
              let l1 := l ++ [mk_integer (cs_box s1)] in
              bind (if use_polytope then bind (mk_poly esub eneg (bvars (cs_box s1)) n fs) (fun p => Some (l1 ++ [p])) else Some l1)
                   (fun l2 => Some (s1, Some (if use_worklist then mk_work l2 else mk_fix l2)))
          end)
    end.

  (** CheckSat, 254-291.  [search] is icp_->CheckSat: its Boolean result is ignored there. *)
  Inductive tres := TSat (b : box) | TUnsat (expl : list formula).
  Definition theory_check (search : contractor -> cstat -> option (bool * cstat)) (b : box) (fs : list formula) : option tres :=
    bind (build_contractor fs (cs_new b None)) (fun p =>
      match p with
      | (s, None) => Some (TUnsat (explanation (cs_wit s) (cs_used s)))
      | (s, Some c) =>
          bind (search c s) (fun r =>
            let s' := snd r in
            Some (if b_empty (cs_box s') then TUnsat (explanation (cs_wit s') (cs_used s')) else TSat (cs_box s')))
      end).
End Build.

(** The two searches, theory_solver.cc:38-50: number_of_jobs 1 or more. *)
Section Search.
  Variables (Orc : oracles) (term : list ival -> list ival -> bool) (m : nat).
  Variable ev : formula -> box -> option (etype * ival).
  Variables (mid : dbl -> dbl -> dbl) (precision : dbl).
  Definition search_seq (n : nat) (lf : bool) (fs : list formula) (c : contractor) (s : cstat) : option (bool * cstat) :=
    icp_seq (prune Orc term m c) ev (branch_largest mid) precision n fs lf s.
  Definition search_par (lf : bool) (jobs : nat) (sched : list nat) (fs : list formula) (c : contractor) (s : cstat) : option (bool * cstat) :=
    icp_par (prune Orc term m c) ev mid precision fs lf jobs sched s.
End Search.

(** ** Specification *)
(** An evaluator answering UNSAT on a box is right for every assignment in the box that respects the
    types of the formula's own variables. *)
Definition evaluator_local (M : interp) (D : pdom) (ev : formula -> box -> option (etype * ival)) (f : formula) (vars : list var) : Prop :=
  forall b i rho, box_ok b -> bvars b = vars -> ev f b = Some (UNSAT, i) ->
    (forall v, In v (fvF f) -> typed_val (vty v) (rho v)) -> in_box rho b -> ~ solves M D f rho.
