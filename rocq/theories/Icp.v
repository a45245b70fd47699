(** * Branch and prune

    Models solver/icp.cc (EvaluateBox), solver/brancher.cc and solver/icp_seq.cc.  The pruner, the
    formula evaluators and the brancher (a Config member a user can replace) are parameters. *)
From Coq Require Import ZArith Reals List Bool.
From Flocq Require Import IEEE754.BinarySingleNaN.
From Verif Require Import Dbl Syntax Sem Interval MathConv IEval Contr.
Import ListNotations.

(** FindMaxDiam, brancher.cc:26-41; indices of the active set in increasing order. *)
Section Branch.
  Variable mid : dbl -> dbl -> dbl.
  Fixpoint fmd_loop (b : box) (act : bits) (i n : nat) (best : dbl * option nat) : dbl * option nat :=
    match n with
    | O => best
    | S n' =>
        fmd_loop b act (S i) n'
          (if act i then
             if dgt (i_diam (b_get b i)) (fst best) && i_bisectable mid (b_get b i) then (i_diam (b_get b i), Some i) else best
           else best)
    end.
  Definition find_max_diam (b : box) (act : bits) : dbl * option nat := fmd_loop b act 0 (b_size b) (dzero, None).
  (** BranchLargestFirst, brancher.cc:43-62.  [Some None] is the result -1, [None] an exception. *)
  Definition branch_largest (b : box) (act : bits) : option (option (nat * box * box)) :=
    match snd (find_max_diam b act) with
    | None => Some None
    | Some i => match b_bisect mid b i with Some (l, r) => Some (Some (i, l, r)) | None => None end
    end.
End Branch.

Section Icp.
  (** contractor.Prune(cs) *)
  Variable pr : cstat -> option cstat.
  (** formula_evaluator(box): type and enclosure, or an exception *)
  Variable ev : formula -> box -> option (etype * ival).
  Variable brancher : box -> bits -> option (option (nat * box * box)).
  Variable precision : dbl.

  Inductive eres := EThrow | EUnsat (s : cstat) | EBits (act : bits).
  (** is_simple_relational() || is_neq() of the evaluator (both are computed from the formula) *)
  Definition no_branch (f : formula) : bool := is_simple_relational f || is_neq_pol f true.
  Definition wide (f : formula) (i : ival) : bool := dgt (i_diam i) precision && negb (no_branch f).
  (** EvaluateBox, icp.cc:30-76, from the accumulated candidates *)
  Fixpoint eval_loop (fs : list formula) (s : cstat) (act : bits) : eres :=
    match fs with
    | [] => EBits act
    | f :: fs' =>
        match ev f (cs_box s) with
        | None => EThrow
        | Some (UNSAT, _) => EUnsat (add_used (cs_with_box s (b_set_empty (cs_box s))) f)
        | Some (VALID, _) => eval_loop fs' s act
        | Some (UNKNOWN, i) =>
            eval_loop fs' s (if wide f i then bits_or act (uses (bvars (cs_box s)) f) else act)
        end
    end.
  Definition eval_box (fs : list formula) (s : cstat) : eres := eval_loop fs s bits0.
  Definition bits_none (n : nat) (act : bits) : bool := match bits_find act 0 n with None => true | Some _ => false end.

  (** One iteration, icp_seq.cc:62-140, on a box popped with its branching point. *)
  Inductive outcome := Infeasible (s : cstat) | Accept (s : cstat) | Split (d : nat) (l r : box) (s : cstat).
  Definition icp_step (fs : list formula) (s : cstat) : option outcome :=
    bind (pr s) (fun s1 =>
      if b_empty (cs_box s1) then Some (Infeasible s1)
      else match eval_box fs s1 with
           | EThrow => None
           | EUnsat s2 => Some (Infeasible s2)
           | EBits act =>
               if bits_none (b_size (cs_box s1)) act then Some (Accept s1)
               else bind (brancher (cs_box s1) act) (fun r =>
                 Some (match r with
                       | None => Accept s1
                       | Some (d, l, r) => Split d l r s1
                       end))
           end).
  (** IcpSeq::CheckSat, icp_seq.cc:34-143.  The head of the list is the back of the vector; [n]
      bounds the number of iterations. *)
  Fixpoint icp_loop (n : nat) (fs : list formula) (stack : list (box * option nat)) (left_first : bool) (s : cstat)
      : option (bool * cstat) :=
    match n with
    | O => None
    | S n' =>
        match stack with
        | [] => Some (false, s)
        | (b, bp) :: st =>
            bind (icp_step fs (mkCs b bp (cs_out s) (cs_used s) (cs_wit s))) (fun o =>
              match o with
              | Infeasible s1 => icp_loop n' fs st left_first s1
              | Accept s1 => Some (true, s1)
              | Split d l r s1 =>
                  icp_loop n' fs
                    (if left_first then (r, Some d) :: (l, Some d) :: st else (l, Some d) :: (r, Some d) :: st)
                    (negb left_first) s1
              end)
        end
    end.
  Definition icp_seq (n : nat) (fs : list formula) (left_first : bool) (s : cstat) : option (bool * cstat) :=
    icp_loop n fs [(cs_box s, None)] left_first s.
End Icp.

(** ** Specification: individually sound components *)
Section Sound.
  Variables (M : interp) (D : pdom).
  (** Integer variables range over integers a double holds exactly. *)
  Definition int_range (b : box) : Prop := forall i v x, nth_error (bvars b) i = Some v -> is_int_type (vty v) = true ->
    imem x (b_get b i) -> (Rabs x <= 9007199254740991)%R.
  Definition box_sub (b' b : box) : Prop := bvars b' = bvars b /\ forall i x, imem x (b_get b' i) -> imem x (b_get b i).
  (** The pruner returns a part of the box that still contains every solution of [fs]. *)
  Definition pruner_sound (fs : list formula) (pr : cstat -> option cstat) (vars : list var) : Prop :=
    forall s s', box_ok (cs_box s) -> bvars (cs_box s) = vars -> pr s = Some s' ->
      box_ok (cs_box s') /\ box_sub (cs_box s') (cs_box s) /\
      forall rho, well_typed rho -> in_box rho (cs_box s) -> (forall f, In f fs -> solves M D f rho) -> in_box rho (cs_box s').
  (** An evaluator answering UNSAT on a box is right. *)
  Definition evaluator_sound (ev : formula -> box -> option (etype * ival)) (f : formula) (vars : list var) : Prop :=
    forall b i rho, box_ok b -> bvars b = vars -> ev f b = Some (UNSAT, i) -> well_typed rho -> in_box rho b -> ~ solves M D f rho.
  (** A brancher returns two parts of the box that together contain every well-typed point. *)
  Definition brancher_sound (brancher : box -> bits -> option (option (nat * box * box))) : Prop :=
    forall b act d l r, box_ok b -> int_range b -> brancher b act = Some (Some (d, l, r)) ->
      box_ok l /\ box_ok r /\ box_sub l b /\ box_sub r b /\
      forall rho, well_typed rho -> in_box rho b -> in_box rho l \/ in_box rho r.
End Sound.
