(** * Scoped containers

    Models dreal/util/scoped_vector.h:32-123, dreal/util/scoped_unordered_map.h:33-139 and
    dreal/util/scoped_unordered_set.h:33-118.
    Simplification: the underlying hash table is an association list without duplicate keys; only its
    content (what [find], [count], [operator[]], [size] report) is observable, not its order. *)
From Coq Require Import List Bool Arith.
Import ListNotations.

(** Outcome of an operation: the exception of [pop] on an empty scope stack, or undefined behaviour
    (dereferencing/erasing [end()]). *)
Inductive outcome (A : Type) := Ok (a : A) | Throw | Undef.
Arguments Ok {A} a. Arguments Throw {A}. Arguments Undef {A}.

(** ** ScopedVector *)
Section Vec.
  Context {T : Type}.
  Record svec := { sv_vec : list T; sv_scopes : list nat }.   (* vector_, scopes_ (last element first) *)
  Definition sv_init : svec := {| sv_vec := []; sv_scopes := [] |}.
  (** push_back, 63-64 *)
  Definition sv_push_back (x : T) (s : svec) : svec := {| sv_vec := sv_vec s ++ [x]; sv_scopes := sv_scopes s |}.
  (** push, 65 *)
  Definition sv_push (s : svec) : svec := {| sv_vec := sv_vec s; sv_scopes := length (sv_vec s) :: sv_scopes s |}.
  (** The loop of pop, 73-77: [while (cur_size-- > prev_size) { pop_back; count++ }] *)
  Fixpoint sv_pop_loop (cur prev : nat) (v : list T) (count : nat) : list T * nat :=
    match cur with
    | O => (v, count)
    | S cur' => if Nat.ltb prev (S cur') then sv_pop_loop cur' prev (removelast v) (S count) else (v, count)
    end.
  (** pop, 66-79: returns the number of elements removed *)
  Definition sv_pop (s : svec) : outcome (nat * svec) :=
    match sv_scopes s with
    | [] => Throw
    | prev :: sc => let (v, n) := sv_pop_loop (length (sv_vec s)) prev (sv_vec s) 0 in Ok (n, {| sv_vec := v; sv_scopes := sc |})
    end.
  (** [last() = x], the non-const last(), 92-95 (used by Context::Impl::box()) *)
  Definition sv_set_last (x : T) (s : svec) : outcome svec :=
    match sv_vec s with
    | [] => Undef
    | _ => Ok {| sv_vec := removelast (sv_vec s) ++ [x]; sv_scopes := sv_scopes s |}
    end.
  (** operator<, 104-111: [None] = reads past the end of the other vector *)
  Fixpoint sv_less (ltb : T -> T -> bool) (a b : list T) : option bool :=
    match a with
    | [] => Some false
    | x :: a' => match b with
                 | [] => None
                 | y :: b' => if ltb x y then Some true else sv_less ltb a' b'
                 end
    end.

  Inductive sv_op := VPushBack (x : T) | VPush | VPop.
  (** One call: the new state, and whether it threw. *)
  Definition sv_step (s : svec) (o : sv_op) : svec * bool :=
    match o with
    | VPushBack x => (sv_push_back x s, false)
    | VPush => (sv_push s, false)
    | VPop => match sv_pop s with Ok (_, s') => (s', false) | _ => (s, true) end
    end.
End Vec.
Arguments svec T : clear implicits.
Arguments sv_op T : clear implicits.

(** ** ScopedUnorderedMap and ScopedUnorderedSet *)
Section Map.
  Context {K V : Type}.
  Variable eqb : K -> K -> bool.

  Fixpoint al_find (k : K) (m : list (K * V)) : option V :=
    match m with [] => None | (k', v) :: m' => if eqb k k' then Some v else al_find k m' end.
  Fixpoint al_set (k : K) (v : V) (m : list (K * V)) : list (K * V) :=
    match m with [] => [] | (k', w) :: m' => if eqb k k' then (k', v) :: m' else (k', w) :: al_set k v m' end.
  Fixpoint al_erase (k : K) (m : list (K * V)) : list (K * V) :=
    match m with [] => [] | (k', w) :: m' => if eqb k k' then m' else (k', w) :: al_erase k m' end.

  (** actions_: [AInsert k] undoes by erasing; [AUpdate k old] undoes by restoring [old].  Last first. *)
  Inductive action := AInsert (k : K) | AUpdate (k : K) (old : V).
  Record smapt := { sm_map : list (K * V); sm_acts : list action; sm_stack : list nat }.
  Definition sm_init : smapt := {| sm_map := []; sm_acts := []; sm_stack := [] |}.

  (** insert, scoped_unordered_map.h:78-90 *)
  Definition sm_insert (k : K) (v : V) (s : smapt) : smapt :=
    match al_find k (sm_map s) with
    | None => {| sm_map := (k, v) :: sm_map s; sm_acts := AInsert k :: sm_acts s; sm_stack := sm_stack s |}
    | Some old => {| sm_map := al_set k v (sm_map s); sm_acts := AUpdate k old :: sm_acts s; sm_stack := sm_stack s |}
    end.
  (** insert, scoped_unordered_set.h:79-86: an existing key is left alone.  (A set is a map to [unit].) *)
  Definition ss_insert (k : K) (v : V) (s : smapt) : smapt :=
    match al_find k (sm_map s) with
    | None => {| sm_map := (k, v) :: sm_map s; sm_acts := AInsert k :: sm_acts s; sm_stack := sm_stack s |}
    | Some _ => s
    end.
  (** push, 107 *)
  Definition sm_push (s : smapt) : smapt :=
    {| sm_map := sm_map s; sm_acts := sm_acts s; sm_stack := length (sm_acts s) :: sm_stack s |}.
  (** Undo one action, 118-128; undefined when the key is missing (erase/dereference of end()). *)
  Definition undo (a : action) (m : list (K * V)) : outcome (list (K * V)) :=
    match a with
    | AInsert k => match al_find k m with Some _ => Ok (al_erase k m) | None => Undef end
    | AUpdate k v => match al_find k m with Some _ => Ok (al_set k v m) | None => Undef end
    end.
  (** The loop of pop, 114-131 *)
  Fixpoint undo_loop (idx : nat) (acts : list action) (m : list (K * V)) : outcome (list action * list (K * V)) :=
    match acts with
    | [] => Ok ([], m)
    | a :: acts' =>
        if Nat.ltb idx (length acts) then
          match undo a m with
          | Ok m' => undo_loop idx acts' m'
          | Throw => Throw | Undef => Undef
          end
        else Ok (acts, m)
    end.
  (** pop, 108-133 *)
  Definition sm_pop (s : smapt) : outcome smapt :=
    match sm_stack s with
    | [] => Throw
    | idx :: st =>
        match undo_loop idx (sm_acts s) (sm_map s) with
        | Ok (acts, m) => Ok {| sm_map := m; sm_acts := acts; sm_stack := st |}
        | Throw => Throw | Undef => Undef
        end
    end.
  (** clear, 73-77 *)
  Definition sm_clear (s : smapt) : smapt := sm_init.

  Inductive sm_op := MInsert (k : K) (v : V) | MPush | MPop | MClear.
  (** One call: the new state and whether it threw; [None] = undefined behaviour. *)
  Definition sm_step (ins : K -> V -> smapt -> smapt) (s : smapt) (o : sm_op) : option (smapt * bool) :=
    match o with
    | MInsert k v => Some (ins k v s, false)
    | MPush => Some (sm_push s, false)
    | MPop => match sm_pop s with Ok s' => Some (s', false) | Throw => Some (s, true) | Undef => None end
    | MClear => Some (sm_clear s, false)
    end.
  Fixpoint sm_run (ins : K -> V -> smapt -> smapt) (s : smapt) (ops : list sm_op) : option (smapt * list bool) :=
    match ops with
    | [] => Some (s, [])
    | o :: ops' =>
        match sm_step ins s o with
        | None => None
        | Some (s1, t) => match sm_run ins s1 ops' with None => None | Some (s2, ts) => Some (s2, t :: ts) end
        end
    end.
End Map.
Arguments smapt K V : clear implicits.
Arguments sm_op K V : clear implicits.
Arguments action K V : clear implicits.

Fixpoint sv_run {T} (s : svec T) (ops : list (sv_op T)) : svec T * list bool :=
  match ops with
  | [] => (s, [])
  | o :: ops' => let (s1, t) := sv_step s o in let (s2, ts) := sv_run s1 ops' in (s2, t :: ts)
  end.
