(** * The worker thread pool

    Models third_party/com_github_progschj_threadpool/ThreadPool/ThreadPool.h as a transition system.  The
    threads are the workers, any number of threads that enqueue, and the thread that destroys the pool.  One
    transition is one operation on the mutex, the condition variable or, while the mutex is held, on the
    queue and the stop flag.  Simplified: a task runs to its end in one transition (an exception it throws
    goes to its future); a task does not itself use the pool; accesses are sequentially consistent. *)
From Coq Require Import List Bool Arith.
Import ListNotations.

Section Pool.
  Variable task : Type.

  (** Program points of a worker, lines 53-67. *)
  Inductive wpc :=
  | WLock                  (* 57: lock queue_mutex (also: lock again after a wake-up inside wait) *)
  | WTest                  (* 58-59: holding the mutex, test the predicate of wait *)
  | WWait                  (* 58: in the wait set of the condition variable, mutex released *)
  | WTake                  (* 60-62: holding the mutex, leave or take the first task *)
  | WRun (t : task)        (* 65 *)
  | WExit.                 (* 60: returned *)
  (** Program points of enqueue, lines 71-90. *)
  Inductive cpc :=
  | CIdle                  (* before the next call *)
  | CPush (t : task)       (* 81-84: holding the mutex *)
  | CNotify.               (* 86: notify_one *)
  (** A thread that enqueues the tasks [c_todo] one after the other. *)
  Record client := mkC { c_pc : cpc; c_todo : list task }.
  (** Program points of the destructor, lines 93-99. *)
  Inductive dpc :=
  | DIdle                  (* not called yet *)
  | DStop                  (* 96: holding the mutex *)
  | DNotify                (* 98: notify_all *)
  | DJoin (i : nat)        (* 99: join worker [i] *)
  | DDone.
  Inductive who := Wk (i : nat) | Cl (i : nat) | De.
  (** mutex: its owner; accepted: tasks put in the queue, latest first; rejected: enqueue threw; ran: tasks
      that have finished, latest first *)
  Record pool := mkPool {
    mutex : option who; queue : list task; stop : bool;
    workers : list wpc; clients : list client; destr : dpc;
    accepted : list task; rejected : list task; ran : list task }.

  (** 50-53: [n] workers, the mutex free, nothing queued. *)
  Definition pool_init (n : nat) (cs : list (list task)) : pool :=
    mkPool None [] false (repeat WLock n) (map (mkC CIdle) cs) DIdle [] [] [].

  Fixpoint upd {A} (i : nat) (x : A) (l : list A) : list A :=
    match l, i with
    | [], _ => []
    | _ :: l', 0 => x :: l'
    | y :: l', S i' => y :: upd i' x l'
    end.

  Inductive outcome := Next (p : pool) | Blocked | UB.

  Definition set_wk (p : pool) (m : option who) (q : list task) (i : nat) (w : wpc) (r : list task) : outcome :=
    Next (mkPool m q (stop p) (upd i w (workers p)) (clients p) (destr p) (accepted p) (rejected p) r).
  (** One transition of worker [i]. *)
  Definition step_wk (p : pool) (i : nat) : outcome :=
    match nth_error (workers p) i with
    | None | Some WExit | Some WWait => Blocked
    | Some WLock => match mutex p with None => set_wk p (Some (Wk i)) (queue p) i WTest (ran p) | Some _ => Blocked end
    | Some WTest => if stop p || negb (match queue p with [] => true | _ => false end)
                    then set_wk p (mutex p) (queue p) i WTake (ran p)
                    else set_wk p None (queue p) i WWait (ran p)
    | Some WTake =>
        match queue p with
        | [] => if stop p then set_wk p None [] i WExit (ran p) else UB   (* front() of an empty queue *)
        | t :: q => set_wk p None q i (WRun t) (ran p)
        end
    | Some (WRun t) => set_wk p (mutex p) (queue p) i WLock (t :: ran p)
    end.

  (** notify_one wakes one of the waiting threads; [k] is a wish: the [k]-th worker if it waits, else the
      first that does. *)
  Definition waits (w : wpc) : bool := match w with WWait => true | _ => false end.
  Fixpoint wake_first (l : list wpc) : list wpc :=
    match l with [] => [] | w :: l' => if waits w then WLock :: l' else w :: wake_first l' end.
  Definition wake_one (k : nat) (l : list wpc) : list wpc :=
    match nth_error l k with Some WWait => upd k WLock l | _ => wake_first l end.
  Definition wake_all (l : list wpc) : list wpc := map (fun w => if waits w then WLock else w) l.

  (** One transition of the enqueuing thread [i]. *)
  Definition step_cl (p : pool) (i k : nat) : outcome :=
    match nth_error (clients p) i with
    | None => Blocked
    | Some c =>
        let put m q ws c' acc rej := Next (mkPool m q (stop p) ws (upd i c' (clients p)) (destr p) acc rej (ran p)) in
        match c_pc c with
        | CIdle =>
            match c_todo c, mutex p with
            | t :: ts, None => put (Some (Cl i)) (queue p) (workers p) (mkC (CPush t) ts) (accepted p) (rejected p)
            | _, _ => Blocked
            end
        | CPush t =>
            if stop p then put None (queue p) (workers p) (mkC CIdle (c_todo c)) (accepted p) (t :: rejected p)
            else put None (queue p ++ [t]) (workers p) (mkC CNotify (c_todo c)) (t :: accepted p) (rejected p)
        | CNotify => put (mutex p) (queue p) (wake_one k (workers p)) (mkC CIdle (c_todo c)) (accepted p) (rejected p)
        end
    end.

  (** One transition of the destroying thread. *)
  Definition step_de (p : pool) : outcome :=
    let put m s ws d := Next (mkPool m (queue p) s ws (clients p) d (accepted p) (rejected p) (ran p)) in
    match destr p with
    | DIdle => match mutex p with None => put (Some De) (stop p) (workers p) DStop | Some _ => Blocked end
    | DStop => put None true (workers p) DNotify
    | DNotify => put (mutex p) (stop p) (wake_all (workers p)) (DJoin 0)
    | DJoin i => match nth_error (workers p) i with
                 | None => put (mutex p) (stop p) (workers p) DDone
                 | Some WExit => put (mutex p) (stop p) (workers p) (DJoin (S i))
                 | Some _ => Blocked
                 end
    | DDone => Blocked
    end.

  (** A choice of the scheduler: a thread makes a transition, or a waiting worker wakes without cause. *)
  Inductive choice := Go (w : who) (k : nat) | Spurious (i : nat).
  Definition step (p : pool) (c : choice) : outcome :=
    match c with
    | Go (Wk i) _ => step_wk p i
    | Go (Cl i) k => step_cl p i k
    | Go De _ => step_de p
    | Spurious i => match nth_error (workers p) i with
                    | Some WWait => set_wk p (mutex p) (queue p) i WLock (ran p)
                    | _ => Blocked
                    end
    end.
  (** A schedule; a choice that is not possible is skipped. *)
  Fixpoint run (sched : list choice) (p : pool) : outcome :=
    match sched with
    | [] => Next p
    | c :: sched' => match step p c with Next p' => run sched' p' | Blocked => run sched' p | UB => UB end
    end.
End Pool.
Arguments mkC {task}. Arguments CIdle {task}. Arguments CPush {task}. Arguments CNotify {task}.
Arguments WLock {task}. Arguments WTest {task}. Arguments WWait {task}. Arguments WTake {task}. Arguments WRun {task}. Arguments WExit {task}.
Arguments mkPool {task}. Arguments mutex {task}. Arguments queue {task}. Arguments stop {task}. Arguments workers {task}.
Arguments clients {task}. Arguments destr {task}. Arguments accepted {task}. Arguments rejected {task}. Arguments ran {task}.
Arguments c_pc {task}. Arguments c_todo {task}. Arguments Next {task}. Arguments Blocked {task}. Arguments UB {task}.
Arguments pool_init {task}. Arguments step {task}. Arguments run {task}. Arguments step_wk {task}. Arguments step_cl {task}. Arguments step_de {task}.
Arguments waits {task}. Arguments wake_first {task}. Arguments wake_one {task}. Arguments wake_all {task}.
