(** * Parallel branch and prune

    Models solver/icp_parallel.cc as a transition system: each worker is a small state machine, one
    transition per access to shared data (the global stack and the two atomics), and a schedule is an
    arbitrary list of worker indices.  Accesses are sequentially consistent and the lock-free stack
    (util/cds.h, third-party libcds) is linearizable: both are assumptions of the model.  Statistics,
    timers and the Python interrupt flag are left out. *)
From Coq Require Import ZArith Reals List Bool.
From Flocq Require Import IEEE754.BinarySingleNaN.
From Verif Require Import Dbl Syntax Sem Interval MathConv IEval Contr Icp.
Import ListNotations.

(** Program points of Worker, icp_parallel.cc:90-166. *)
Inductive pc :=
| PHead                  (* 90: read found_delta_sat *)
| PCount                 (* 91: load number_of_boxes *)
| PPop                   (* 103: pop the global stack *)
| PWork                  (* 107-160: prune, evaluate, bisect; no shared access *)
| PDec                   (* 119 / 130: number_of_boxes.fetch_sub *)
| PFound                 (* 141 / 155: found_delta_sat = id *)
| PInc (b : box)         (* 56: number_of_boxes.fetch_add, then push [b] *)
| PPush (b : box)        (* 57: push [b] *)
| PDone (accepted : bool).
(** w_cs: *cs (its box is current_box); w_lf: stack_left_box_first; w_pop: need_to_pop *)
Record worker := mkW { w_pc : pc; w_cs : cstat; w_lf : bool; w_pop : bool }.
Record pstate := mkP { p_stack : list box; p_count : Z; p_found : option nat; p_ws : list worker }.

Section Par.
  Variable pr : cstat -> option cstat.
  Variable ev : formula -> box -> option (etype * ival).
  Variable mid : dbl -> dbl -> dbl.
  Variable precision : dbl.
  Variable fs : list formula.
  Variable left_first : bool.            (* config.stack_left_box_first() *)

  Definition set_w (st : pstate) (i : nat) (w : worker) : pstate :=
    mkP (p_stack st) (p_count st) (p_found st) (upd_nth i w (p_ws st)).
  Definition goto (w : worker) (p : pc) : worker := mkW p (w_cs w) (w_lf w) (w_pop w).
  (** One transition of worker [i]; [None] is an exception thrown by the computation at PWork. *)
  Definition par_step (st : pstate) (i : nat) : option pstate :=
    match nth_error (p_ws st) i with
    | None => Some st
    | Some w =>
        match w_pc w with
        | PHead => Some (set_w st i (goto w (match p_found st with None => PCount | Some _ => PDone false end)))
        | PCount =>
            Some (set_w st i (goto w (if (0 <? p_count st)%Z then (if w_pop w then PPop else PWork) else PDone false)))
        | PPop =>
            match p_stack st with
            | [] => Some (set_w st i (goto w PHead))
            | b :: rest =>
                Some (mkP rest (p_count st) (p_found st)
                          (upd_nth i (mkW PWork (cs_with_box (w_cs w) b) (w_lf w) (w_pop w)) (p_ws st)))
            end
        | PWork =>
            bind (icp_step pr ev (branch_largest mid) precision fs (w_cs w)) (fun o =>
              Some (set_w st i
                (match o with
                 | Infeasible s => mkW PDec s (w_lf w) true
                 | Accept s => mkW PFound s (w_lf w) true
                 | Split _ l r s =>
                     if w_lf w then mkW (PInc l) (cs_with_box s r) (w_lf w) true
                     else mkW (PInc r) (cs_with_box s l) (w_lf w) true
                 end)))
        | PDec => Some (mkP (p_stack st) (p_count st - 1) (p_found st) (upd_nth i (goto w PHead) (p_ws st)))
        | PFound => Some (mkP (p_stack st) (p_count st) (Some i) (upd_nth i (goto w (PDone true)) (p_ws st)))
        | PInc b => Some (mkP (p_stack st) (p_count st + 1) (p_found st) (upd_nth i (goto w (PPush b)) (p_ws st)))
        | PPush b =>
            Some (mkP (b :: p_stack st) (p_count st) (p_found st)
                      (upd_nth i (mkW PHead (w_cs w) (negb (w_lf w)) false) (p_ws st)))
        | PDone _ => Some st
        end
    end.
  Fixpoint par_run (sched : list nat) (st : pstate) : option pstate :=
    match sched with
    | [] => Some st
    | i :: sched' => bind (par_step st i) (par_run sched')
    end.
  (** Lines 185-219: one box queued, every worker starts from a copy of the status. *)
  Definition par_init (jobs : nat) (s : cstat) : pstate :=
    mkP [cs_box s] 1 None (repeat (mkW PHead s left_first true) jobs).
  Definition all_done (st : pstate) : bool :=
    forallb (fun w => match w_pc w with PDone _ => true | _ => false end) (p_ws st).
  (** 226-238 *)
  Definition par_result (st : pstate) (s : cstat) : option (bool * cstat) :=
    let j := fold_left (fun acc w => cs_join acc (w_cs w)) (p_ws st) s in
    match p_found st with
    | Some k => match nth_error (p_ws st) k with
                | Some w => Some (true, cs_with_box j (cs_box (w_cs w)))
                | None => None
                end
    | None => Some (false, cs_with_box j (b_set_empty (cs_box j)))
    end.
  (** IcpParallel::CheckSat, 176-239, for one schedule; a schedule that does not finish all workers
      gives no result. *)
  Definition icp_par (jobs : nat) (sched : list nat) (s : cstat) : option (bool * cstat) :=
    bind (pr s) (fun s1 =>
      if b_empty (cs_box s1) then Some (false, s1)
      else bind (par_run sched (par_init jobs s1)) (fun st =>
        if all_done st then par_result st s1 else None)).

  (** ** Specification of the accounting *)
  (** Boxes a worker is responsible for at a program point: the one in its status, and the one it is
      about to push once it has been counted. *)
  Definition held (w : worker) : nat :=
    match w_pc w with
    | PHead | PCount | PPop | PDone false => if w_pop w then 0 else 1
    | PWork | PDec | PFound | PInc _ | PDone true => 1
    | PPush _ => 2
    end.
End Par.
