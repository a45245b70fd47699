(** * Errors during the parallel search

    solver/icp_parallel.cc again, now with what an exception does.  IcpPar.v stops as soon as a worker
    throws; here the exception ends only the worker it happens in, the other workers go on, and the
    caller (the worker with the last index, which runs in the calling thread) learns of it when it asks
    for the worker's result.  An exception leaves CheckSat at once, and with it the local variables the
    other workers refer to (found_delta_sat, global_stack, number_of_boxes; lines 190-200): any later
    access to them is undefined behaviour.  The thread pool starts every task (C47). *)
From Coq Require Import ZArith List Bool.
From Verif Require Import Dbl Syntax Interval IEval Contr Icp IcpPar.
Import ListNotations.

(** The calling thread: has collected the results of the first [k] workers (222-224; [k] stays 0 while
    it is in its own Worker call, 217-219); has returned an answer; has left by an exception. *)
Inductive caller := Collecting (k : nat) | Answered (r : bool) (s : cstat) | Raised.
(** [x_thrown]: workers that ended with an exception.  [x_int]: g_interrupted, util/interrupt.cc:19 *)
Record xstate := mkX { x_st : pstate; x_thrown : list nat; x_int : bool; x_caller : caller }.
(** What happens next: worker [i] takes a step; worker [i] notices the interrupt flag inside
    contractor_fixpoint.cc:53-58; the user presses Ctrl-C (dreal_py.cc:71). *)
Inductive event := Run (i : nat) | Noticed (i : nat) | Signal.
Definition is_running (e : event) : bool := match e with Signal => false | _ => true end.

(** Does the step at this program point access the local variables of CheckSat? *)
Definition shared (p : pc) : bool := match p with PWork | PDone _ => false | _ => true end.
Definition done (p : pc) : bool := match p with PDone _ => true | _ => false end.
Definition mem (i : nat) (l : list nat) : bool := existsb (Nat.eqb i) l.

Section ParX.
  Variable pr : cstat -> option cstat.
  Variable ev : formula -> box -> option (etype * ival).
  Variable mid : dbl -> dbl -> dbl.
  Variable precision : dbl.
  Variable fs : list formula.
  Variable left_first : bool.
  Variable check : bool.              (* DREAL_CHECK_INTERRUPT: only in the Python package *)
  Variable jobs : nat.
  Definition last_index : nat := jobs - 1.  (* 216 *)

  Definition throw (x : xstate) (i : nat) : xstate :=
    mkX (x_st x) (i :: x_thrown x) (x_int x) (if Nat.eqb i last_index then Raised else x_caller x).
  (** 222-238: the caller, its own work done.  get() rethrows the exception of the worker. *)
  Definition collect (s0 : cstat) (x : xstate) : option xstate :=
    match x_caller x with
    | Collecting k =>
        if Nat.eqb k last_index then
          match par_result (x_st x) s0 with
          | Some (r, s) => Some (mkX (x_st x) (x_thrown x) (x_int x) (Answered r s))
          | None => None
          end
        else if mem k (x_thrown x) then Some (mkX (x_st x) (x_thrown x) (x_int x) Raised)
        else match nth_error (p_ws (x_st x)) k with
             | Some w => if done (w_pc w) then Some (mkX (x_st x) (x_thrown x) (x_int x) (Collecting (S k))) else Some x
             | None => None
             end
    | _ => Some x
    end.
  (** [None] is undefined behaviour. *)
  Definition xstep (s0 : cstat) (x : xstate) (e : event) : option xstate :=
    match e with
    | Signal => Some (mkX (x_st x) (x_thrown x) true (x_caller x))
    | Noticed i =>
        match nth_error (p_ws (x_st x)) i with
        | Some w => match w_pc w with
                    | PWork => if check && x_int x && negb (mem i (x_thrown x)) then Some (throw x i) else Some x
                    | _ => Some x
                    end
        | None => Some x
        end
    | Run i =>
        if mem i (x_thrown x) then Some x
        else match nth_error (p_ws (x_st x)) i with
             | None => Some x
             | Some w =>
                 if match x_caller x with Raised => shared (w_pc w) | _ => false end then None
                 else match w_pc w with
                      | PDone _ => if Nat.eqb i last_index then collect s0 x else Some x
                      | p =>
                          (* 92-99 *)
                          if match p with PCount => check && x_int x && (0 <? p_count (x_st x))%Z | _ => false end then Some (throw x i)
                          else match par_step pr ev mid precision fs (x_st x) i with
                               | Some st => Some (mkX st (x_thrown x) (x_int x) (x_caller x))
                               | None => Some (throw x i)
                               end
                      end
             end
    end.
  Fixpoint xrun (s0 : cstat) (es : list event) (x : xstate) : option xstate :=
    match es with
    | [] => Some x
    | e :: es' => bind (xstep s0 x e) (xrun s0 es')
    end.
  Definition xinit (s : cstat) : xstate := mkX (par_init left_first jobs s) [] false (Collecting 0).

  (** How far a call of IcpParallel::CheckSat (176-239) has got after these events. *)
  Inductive progress := Running | Returned (r : bool) (s : cstat) | Threw | Undefined.
  Definition check_sat (es : list event) (s : cstat) : progress :=
    match pr s with
    | None => Threw
    | Some s1 =>
        if b_empty (cs_box s1) then Returned false s1
        else match xrun s1 es (xinit s1) with
             | None => Undefined
             | Some x => match x_caller x with
                         | Collecting _ => Running
                         | Answered r s' => Returned r s'
                         | Raised => Threw
                         end
             end
    end.
End ParX.
