(** * Contractors and contractor status

    Models contractor/contractor.cc, contractor_status.cc and the contractor cells id, integer, seq,
    join, fixpoint, worklist_fixpoint, ibex_fwdbwd, ibex_polytope and the status bookkeeping of
    contractor_forall.h.  The numeric pruning steps of IBEX and the inner loop of the forall
    contractor are oracles ([oracles]); the theorems assume only that they do not lose solutions. *)
From Coq Require Import ZArith Reals List Bool.
From Flocq Require Import IEEE754.BinarySingleNaN.
From Verif Require Import Dbl Syntax Sem Interval MathConv IEval.
Import ListNotations.

(** DynamicBitset: characteristic function; sizes are the box size / number of contractors. *)
Definition bits := nat -> bool.
Definition bits0 : bits := fun _ => false.
Definition bits_all (n : nat) : bits := fun i => Nat.ltb i n.
Definition bits_set (b : bits) (i : nat) : bits := fun j => Nat.eqb i j || b j.
Definition bits_or (a b : bits) : bits := fun j => a j || b j.
Fixpoint bits_find (b : bits) (i n : nat) : option nat :=   (* first set bit in [i, i+n) *)
  match n with
  | O => None
  | S n' => if b i then Some i else bits_find b (S i) n'
  end.

(** ContractorStatus, contractor_status.h:40-110.  [cs_bp = None] is branching_point -1. *)
Record cstat := mkCs { cs_box : box; cs_bp : option nat; cs_out : bits; cs_used : list formula; cs_wit : list var }.

(** contractor_status.cc:70-76 *)
Definition cs_new (b : box) (bp : option nat) : cstat := mkCs b bp bits0 [] [].
Definition cs_with_box (s : cstat) (b : box) : cstat := mkCs b (cs_bp s) (cs_out s) (cs_used s) (cs_wit s).
Definition cs_with_out (s : cstat) (o : bits) : cstat := mkCs (cs_box s) (cs_bp s) o (cs_used s) (cs_wit s).
(** AddUnsatWitness, 107-110 (std::set insertion; order and duplicates are irrelevant to every use) *)
Definition add_witness (s : cstat) (v : var) : cstat :=
  mkCs (cs_box s) (cs_bp s) (cs_out s) (cs_used s) (if mem_var v (cs_wit s) then cs_wit s else cs_wit s ++ [v]).
Definition mem_form (f : formula) (l : list formula) : bool := existsb (formula_eqb f) l.
(** AddUsedConstraint, 90-99 *)
Definition add_used (s : cstat) (f : formula) : cstat :=
  let s1 := if b_empty (cs_box s) then fold_left add_witness (fvF f) s else s in
  mkCs (cs_box s1) (cs_bp s1) (cs_out s1) (if mem_form f (cs_used s1) then cs_used s1 else cs_used s1 ++ [f]) (cs_wit s1).
(** the vector version, 101-105 *)
Definition add_used_list (s : cstat) (fs : list formula) : cstat := fold_left add_used fs s.
(** InplaceJoin, 168-177 *)
Definition set_union {A} (mem : A -> list A -> bool) (l m : list A) : list A :=
  fold_left (fun acc x => if mem x acc then acc else acc ++ [x]) m l.
Definition cs_join (s t : cstat) : cstat :=
  mkCs (b_union (cs_box s) (cs_box t)) (cs_bp s) (bits_or (cs_out s) (cs_out t))
       (set_union mem_form (cs_used s) (cs_used t)) (set_union mem_var (cs_wit s) (cs_wit t)).

(** ** Contractor cells *)
Inductive contractor :=
| CId
| CInteger (idx : list nat)
| CSeq (cs : list contractor)
| CFwd (f : formula)                     (* ContractorIbexFwdbwd / ...Mt *)
| CPoly (fs : list formula)              (* ContractorIbexPolytope / ...Mt *)
| CForall (f : formula)                  (* ContractorForall / ...Mt *)
| CFix (cs : list contractor)
| CWork (cs : list contractor)
| CJoin (cs : list contractor).

(** What IBEX (and the inner counterexample loop) return. *)
Record oracles := {
  o_bwd : formula -> box -> bool * list ival;       (* Function::backward: (unchanged?, new box) *)
  o_poly : list formula -> box -> list ival;        (* CtcPolytopeHull::contract *)
  o_fa : formula -> box -> option (list ival)       (* the loop of ContractorForall::Prune *)
}.

Section Prune.
  Variable Orc : oracles.
  (** TerminationCondition (old interval vector, new one) *)
  Variable term : list ival -> list ival -> bool.

  (** Box index of a variable as used when a contractor's input is built. *)
  Definition uses (vars : list var) (f : formula) : bits :=
    fun i => match nth_error vars i with Some v => mem_var v (fvF f) | None => false end.

  (** input() of a contractor for boxes over [vars]
      (contractor_ibex_fwdbwd.cc:79-83, contractor_ibex_polytope.cc:74-80, contractor_forall.h:120-124,
      contractor_integer.cc:30-38, contractor_seq.cc:34-40 and the analogous constructors). *)
  Fixpoint c_input (vars : list var) (c : contractor) : bits :=
    match c with
    | CId => bits0
    | CInteger idx => fun i => existsb (Nat.eqb i) idx
    | CFwd f => uses vars f
    | CForall f => uses vars f
    | CPoly fs => fun i => existsb (fun f => uses vars f i) fs
    | CSeq cs | CFix cs | CWork cs | CJoin cs => fun i => existsb (fun c' => c_input vars c' i) cs
    end.

  (** Indices among 0..n-1 whose interval changed. *)
  Definition changed_bits (sel : bits) (old new : list ival) (n : nat) : list nat :=
    filter (fun i => sel i && negb (i_eqb (nth i old IEmpty) (nth i new IEmpty))) (seq 0 n).

  (** ContractorIbexFwdbwd::Prune, contractor_ibex_fwdbwd.cc:89-137 *)
  Definition prune_fwd (f : formula) (s : cstat) : cstat :=
    let b := cs_box s in
    let (inner, iv) := o_bwd Orc f b in
    let b' := mkBox (bvars b) iv in
    let s1 := cs_with_box s b' in
    if inner then s1
    else if b_empty b' then add_used (cs_with_out s1 (bits_all (b_size b))) f
    else match changed_bits (uses (bvars b) f) (bvals b) iv (b_size b) with
         | [] => s1
         | l => add_used (cs_with_out s1 (fold_left bits_set l (cs_out s1))) f
         end.

  (** ContractorIbexPolytope::Prune, contractor_ibex_polytope.cc:83-113; the loop there runs over
      old_iv.size() components. *)
  Definition prune_poly (fs : list formula) (s : cstat) : cstat :=
    let b := cs_box s in
    let iv := o_poly Orc fs b in
    let b' := mkBox (bvars b) iv in
    let s1 := cs_with_box s b' in
    if b_empty b' then add_used_list (cs_with_out s1 (bits_all (b_size b))) fs
    else match changed_bits (fun _ => true) (bvals b) iv (length (bvals b)) with
         | [] => s1
         | l => add_used_list (cs_with_out s1 (fold_left bits_set l (cs_out s1))) fs
         end.

  (** ContractorForall::Prune, contractor_forall.h:187-232: the box found by the inner loop, output
      bits for what changed, and the formula is always recorded as used (231). *)
  Definition prune_forall (f : formula) (s : cstat) : option cstat :=
    let b := cs_box s in
    bind (o_fa Orc f b) (fun iv =>
      let b' := mkBox (bvars b) iv in
      let s1 := cs_with_box s b' in
      Some (if b_empty b' then add_used (cs_with_out s1 (bits_all (b_size b))) f
            else add_used (cs_with_out s1 (fold_left bits_set (changed_bits (fun _ => true) (bvals b) iv (b_size b)) (cs_out s1))) f)).

  (** ContractorInteger::Prune, contractor_integer.cc:42-64 *)
  Fixpoint prune_int (idx : list nat) (s : cstat) : cstat :=
    match idx with
    | [] => s
    | i :: idx' =>
        match b_get (cs_box s) i with
        | IEmpty => prune_int idx' s
        | IV l u =>
            if negb (is_integer l) || negb (is_integer u) then
              if dle (dceil l) (dfloor u) then
                prune_int idx' (cs_with_out (cs_with_box s (b_set (cs_box s) i (mk_ival (dceil l) (dfloor u))))
                                            (bits_set (cs_out s) i))
              else
                let s1 := cs_with_box s (b_set_empty (cs_box s)) in
                let s2 := match nth_error (bvars (cs_box s)) i with Some v => add_witness s1 v | None => s1 end in
                cs_with_out s2 (bits_all (b_size (cs_box s)))
            else prune_int idx' s
        end
    end.

  Section Loops.
    Variable pr : contractor -> cstat -> option cstat.
    (** The loop shared by Seq (contractor_seq.cc:43-50) and by one round of Fixpoint
        (contractor_fixpoint.cc:61-66): stop at an empty box. *)
    Fixpoint seq_run (cs : list contractor) (s : cstat) : option cstat :=
      match cs with
      | [] => Some s
      | c :: cs' => bind (pr c s) (fun s' => if b_empty (cs_box s') then Some s' else seq_run cs' s')
      end.
    (** contractor_fixpoint.cc:48-68; [n] bounds the number of rounds, exhausting it is no result. *)
    Fixpoint fix_loop (n : nat) (cs : list contractor) (s : cstat) : option cstat :=
      match n with
      | O => None
      | S n' => bind (seq_run cs s) (fun s' =>
          if b_empty (cs_box s') then Some s'
          else if term (bvals (cs_box s)) (bvals (cs_box s')) then Some s'
          else fix_loop n' cs s')
      end.
    (** contractor_join.cc:43-51 *)
    Fixpoint join_run (saved : cstat) (cs : list contractor) (acc : cstat) : option cstat :=
      match cs with
      | [] => Some acc
      | c :: cs' => bind (pr c saved) (fun t => join_run saved cs' (cs_join acc t))
      end.

    (** UpdateWorklist, contractor_worklist_fixpoint.cc:32-40, with input_to_contractors_ (62-69)
        unfolded: contractor j is added when one of its inputs is in the output. *)
    Definition wl_update (vars : list var) (all : list contractor) (n : nat) (out wl : bits) : bits :=
      fun j => wl j || existsb (fun i => out i && match nth_error all j with Some c => c_input vars c i | None => false end) (seq 0 n).
    (** Phase 1, 100-130, over the contractors [cs] to check; the flag says the box became empty. *)
    Fixpoint wl_phase1 (all cs : list contractor) (s : cstat) (wl : bits) : option (cstat * bits * bool) :=
      match cs with
      | [] => Some (s, wl, false)
      | c :: cs' => bind (pr c (cs_with_out s bits0)) (fun s' =>
          if b_empty (cs_box s') then Some (s', wl, true)
          else wl_phase1 all cs' s' (wl_update (bvars (cs_box s')) all (b_size (cs_box s')) (cs_out s') wl))
      end.
    (** Phase 2, 135-155.  The inner while(true) is only left by return. *)
    Fixpoint wl_phase2 (n : nat) (all : list contractor) (s : cstat) (wl : bits) (k : nat) : option cstat :=
      match n with
      | O => None
      | S n' =>
          match nth_error all k with
          | None => None
          | Some c =>
              let wl1 : bits := fun j => negb (Nat.eqb j k) && wl j in
              bind (pr c (cs_with_out s bits0)) (fun s' =>
                if b_empty (cs_box s') then Some s'
                else
                  let wl2 := wl_update (bvars (cs_box s')) all (b_size (cs_box s')) (cs_out s') wl1 in
                  match bits_find wl2 0 (length all) with
                  | None => Some s'                                        (* worklist.none() *)
                  | Some first =>
                      match bits_find wl2 (S k) (length all - S k) with    (* find_next *)
                      | Some k' => wl_phase2 n' all s' wl2 k'
                      | None => wl_phase2 n' all s' wl2 first
                      end
                  end)
          end
      end.
    (** ContractorWorklistFixpoint::Prune, 90-156 *)
    Definition wl_run (n : nat) (all : list contractor) (s : cstat) : option cstat :=
      let todo := match cs_bp s with
                  | None => all
                  | Some i => filter (fun c => c_input (bvars (cs_box s)) c i) all
                  end in
      bind (wl_phase1 all todo s bits0) (fun r =>
        match r with (s', wl, e) =>
          if e then Some s'
          else match bits_find wl 0 (length all) with
               | None => Some s'
               | Some k => if term (bvals (cs_box s)) (bvals (cs_box s')) then Some s' else wl_phase2 n all s' wl k
               end
        end).
  End Loops.

  (** Contractor::Prune, contractor.cc:103-109.  [n] bounds nesting and loop rounds. *)
  Fixpoint prune (n : nat) (c : contractor) (s : cstat) {struct n} : option cstat :=
    match n with
    | O => None
    | S n' =>
        match c with
        | CId => Some s
        | CInteger idx => Some (prune_int idx s)
        | CFwd f => Some (prune_fwd f s)
        | CPoly fs => Some (prune_poly fs s)
        | CForall f => prune_forall f s
        | CSeq cs => seq_run (prune n') cs s
        | CFix cs => fix_loop (prune n') n' cs s
        | CWork cs => wl_run (prune n') n' cs s
        | CJoin cs => join_run (prune n') s cs (cs_with_box s (b_set_empty (cs_box s)))
        end
    end.
End Prune.

(** ** Constructors, contractor.cc:117-206 *)
(** Flatten, 48-67 *)
Definition c_flatten (cs : list contractor) : list contractor :=
  flat_map (fun c => match c with CId => [] | CSeq l => l | _ => [c] end) cs.
Definition is_int_type (t : vtype) : bool := match t with INTEGER | BINARY => true | _ => false end.
Definition int_indexes (vars : list var) : list nat :=
  filter (fun i => match nth_error vars i with Some v => is_int_type (vty v) | None => false end) (seq 0 (length vars)).
(** make_contractor_integer, 121-132 *)
Definition mk_integer (b : box) : contractor :=
  if existsb (fun v => is_int_type (vty v)) (bvars b) then CInteger (int_indexes (bvars b)) else CId.
Definition mk_seq (cs : list contractor) : contractor := CSeq (c_flatten cs).
Definition mk_fix (cs : list contractor) : contractor := match c_flatten cs with [] => CId | l => CFix l end.
Definition mk_work (cs : list contractor) : contractor := match c_flatten cs with [] => CId | l => CWork l end.
Definition mk_join (cs : list contractor) : contractor := CJoin cs.

(** DefaultTerminationCondition, theory_solver.cc:55-83 *)
Definition i_degenerated (i : ival) : bool := match i with IEmpty => true | IV l u => deq l u end.
Definition default_term (old new : list ival) : bool :=
  forallb (fun p =>
    let o := fst p in
    let w := i_diam (snd p) in
    if deq w dpinf then true
    else if i_degenerated o then true
    else negb (dge (dsub (dZ 1) (ddiv w (i_diam o))) (ddiv (dZ 1) (dZ 100)))) (combine old new).

(** ** Specification: the assignments a contractor must keep *)
Section Keeps.
  Variables (M : interp) (D : pdom).
  Fixpoint c_sem (c : contractor) (rho : env) : Prop :=
    match c with
    | CId => True
    | CInteger _ => True     (* integrality is a property of the variables' types *)
    | CFwd f | CForall f => solves M D f rho
    | CPoly fs => forall f, In f fs -> solves M D f rho
    | CSeq cs | CFix cs | CWork cs => fold_right (fun c' acc => c_sem c' rho /\ acc) True cs
    | CJoin cs => fold_right (fun c' acc => c_sem c' rho \/ acc) False cs
    end.
End Keeps.

Definition b_full (b : box) : Prop := Forall (fun i => i_empty i = false) (bvals b).
Definition iv_sub (l m : list ival) : Prop := forall i x, imem x (nth i l IEmpty) -> imem x (nth i m IEmpty).

(** The pruning step [iv] of a constraint set [fs] on box [b] is acceptable: it keeps the shape, only
    shrinks, keeps every solution of [fs] in the box, and, on a box without empty components, either
    empties the box or changes only the constraint's own variables, leaving no component empty. *)
Definition step_ok (M : interp) (D : pdom) (fs : list formula) (b : box) (iv : list ival) : Prop :=
  length iv = length (bvals b) /\ Forall i_ok iv /\ iv_sub iv (bvals b) /\
  (forall rho, in_box rho b -> (forall f, In f fs -> solves M D f rho) -> in_box rho (mkBox (bvars b) iv)) /\
  (b_full b -> Forall (fun i => i = IEmpty) iv \/
     (Forall (fun i => i_empty i = false) iv /\
      forall i v, nth_error (bvars b) i = Some v -> (forall f, In f fs -> ~ In v (fvF f)) -> nth i iv IEmpty = b_get b i)).

(** Assumptions on the oracles, for boxes over [vars]. *)
Definition fwd_ok (M : interp) (D : pdom) (Orc : oracles) (f : formula) (vars : list var) : Prop :=
  forall b, box_ok b -> bvars b = vars ->
    step_ok M D [f] b (snd (o_bwd Orc f b)) /\ (fst (o_bwd Orc f b) = true -> snd (o_bwd Orc f b) = bvals b).
Definition poly_ok (M : interp) (D : pdom) (Orc : oracles) (fs : list formula) (vars : list var) : Prop :=
  forall b, box_ok b -> bvars b = vars -> step_ok M D fs b (o_poly Orc fs b).
Definition fa_ok (M : interp) (D : pdom) (Orc : oracles) (f : formula) (vars : list var) : Prop :=
  forall b iv, box_ok b -> bvars b = vars -> o_fa Orc f b = Some iv -> step_ok M D [f] b iv.
Fixpoint c_ok (M : interp) (D : pdom) (Orc : oracles) (vars : list var) (c : contractor) : Prop :=
  match c with
  | CId => True
  | CInteger idx => forall i, In i idx -> exists v, nth_error vars i = Some v /\ is_int_type (vty v) = true
  | CFwd f => fwd_ok M D Orc f vars /\ forall v, In v (fvF f) -> In v vars
  | CPoly fs => poly_ok M D Orc fs vars /\ forall f v, In f fs -> In v (fvF f) -> In v vars
  | CForall f => fa_ok M D Orc f vars /\ forall v, In v (fvF f) -> In v vars
  | CSeq cs | CFix cs | CWork cs | CJoin cs => fold_right (fun c' acc => c_ok M D Orc vars c' /\ acc) True cs
  end.
