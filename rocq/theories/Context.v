(** * The solver context: assertions, scopes, the SAT/theory loop and the model

    Models solver/context_impl.cc and solver/context.cc. *)
From Coq Require Import ZArith List Bool.
From Flocq Require Import IEEE754.BinarySingleNaN.
From Verif Require Import Dbl Syntax FormulaCons PredAbs Tseitin Scoped Interval MathConv IEval Contr Icp Filter Theory IteElim Sat.
Import ListNotations.

(** context_impl.h:140-170.  [cx_calls] counts the calls of the external solvers (their answers may depend
    on it); [cx_next] is the identifier counter of Variable. *)
Record ctx := {
  cx_boxes : svec box;           (* boxes_ *)
  cx_stack : svec formula;       (* stack_ *)
  cx_sat : satst;                (* sat_solver_ *)
  cx_next : nat;
  cx_mvars : list var;           (* model_variables_ *)
  cx_model : box;                (* model_ *)
  cx_calls : nat
}.
(** Impl(config), 91-96; [n]: identifiers already used by the process *)
Definition cx_init (n : nat) : ctx :=
  {| cx_boxes := sv_push_back box0 sv_init; cx_stack := sv_init; cx_sat := sat_init; cx_next := n;
     cx_mvars := []; cx_model := box0; cx_calls := 0 |}.

Definition last_opt {A} (l : list A) : option A := match rev l with [] => None | x :: _ => Some x end.
(** box(), context_impl.h:128 (boxes_.last()); never empty *)
Definition cx_box (c : ctx) : option box := last_opt (sv_vec (cx_boxes c)).
Definition cx_set_box (b : box) (c : ctx) : option ctx :=
  match sv_set_last b (cx_boxes c) with
  | Ok bs => Some {| cx_boxes := bs; cx_stack := cx_stack c; cx_sat := cx_sat c; cx_next := cx_next c;
                     cx_mvars := cx_mvars c; cx_model := cx_model c; cx_calls := cx_calls c |}
  | _ => None
  end.
Definition cx_with_next (n : nat) (c : ctx) : ctx :=
  {| cx_boxes := cx_boxes c; cx_stack := cx_stack c; cx_sat := cx_sat c; cx_next := n;
     cx_mvars := cx_mvars c; cx_model := cx_model c; cx_calls := cx_calls c |}.
Definition cx_with_sat (s : satst) (n : nat) (c : ctx) : ctx :=
  {| cx_boxes := cx_boxes c; cx_stack := cx_stack c; cx_sat := s; cx_next := n;
     cx_mvars := cx_mvars c; cx_model := cx_model c; cx_calls := cx_calls c |}.
Definition cx_push_stack (f : formula) (c : ctx) : ctx :=
  {| cx_boxes := cx_boxes c; cx_stack := sv_push_back f (cx_stack c); cx_sat := cx_sat c; cx_next := cx_next c;
     cx_mvars := cx_mvars c; cx_model := cx_model c; cx_calls := cx_calls c |}.

(** AddToBox, 222-231 *)
Definition b_add_new (b : box) (v : var) : box := if b_has b v then b else b_add b v.
(** DeclareVariable, 233-240, and mark_model_variable, 439-441 *)
Definition cx_declare (v : var) (model : bool) (c : ctx) : option ctx :=
  bind (cx_box c) (fun b => bind (cx_set_box (b_add_new b v) c) (fun c1 =>
    Some (if model && negb (mem_var v (cx_mvars c1)) then
            {| cx_boxes := cx_boxes c1; cx_stack := cx_stack c1; cx_sat := cx_sat c1; cx_next := cx_next c1;
               cx_mvars := v :: cx_mvars c1; cx_model := cx_model c1; cx_calls := cx_calls c1 |}
          else c1))).
(** SetInterval, 355-359; SetDomain (242-249) evaluates its bounds and calls it *)
Definition cx_set_interval (v : var) (l u : dbl) (c : ctx) : option ctx :=
  bind (cx_box c) (fun b => cx_set_box (b_setv b v (mk_ival l u)) c).

(** static_cast<int> of a double: undefined if the integral part does not fit *)
Definition cast_int (x : dbl) : option Z :=
  if is_finite x then
    let z := Btrunc x in
    if (Z.leb int_lo z && Z.leb z int_hi)%bool then Some z else None
  else None.

Section Ctx.
  Variable fold : expr -> expr -> option dbl.
  Variable K : eops.
  Variable pico : pico_t.
  Variable T : nat -> box -> list formula -> option tres.     (* theory_solver_.CheckSat *)
  Variable mid : dbl -> dbl -> dbl.
  Variable precision : dbl.

  (** Assert, 98-125 *)
  Definition cx_assert (f : formula) (c : ctx) : option ctx :=
    if is_true f then Some c else
    bind (cx_box c) (fun b =>
    if b_empty b then Some c else
    if is_false f then cx_set_box (b_set_empty b) c else
    bind (filter_assertion f b) (fun p =>
      match fst p with
      | NotFiltered =>
          let (g, s) := ite_process fold K f (cx_next c) in
          bind (cx_set_box (fold_left b_add_new (it_vars s) (snd p)) c) (fun c1 =>
          bind (sat_add_formula fold g (it_next s) (cx_sat c1)) (fun q =>
            Some (cx_with_sat (fst q) (snd q) (cx_push_stack g c1))))
      | _ => cx_set_box (snd p) c
      end)).

  (** The theory literals of an assignment, 166-172 *)
  Fixpoint theory_lits (s : satst) (tm : list (var * bool)) : option (list formula) :=
    match tm with
    | [] => Some (@nil formula)
    | (v, val) :: tm' =>
        bind (theory_literal s v) (fun f => bind (theory_lits s tm') (fun r =>
          Some ((if val then f else mk_not f) :: r)))
    end.
  (** box[p.first] = p.second ? 1.0 : 0.0, 157-159 *)
  Definition set_bools (bm : list (var * bool)) (b : box) : box :=
    fold_left (fun (b : box) (p : var * bool) => b_setv b (fst p) (i_point (if snd p then dZ 1 else dzero))) bm b.

  (** The loop of CheckSatCore, 146-205; [None]: PICOSAT_UNKNOWN or another exception, or out of fuel.
      Returns the box of a model, the SAT solver, the identifier counter and the call counter. *)
  Fixpoint core_loop (n : nat) (b : box) (s : satst) (nx t : nat) : option (option box * satst * nat * nat) :=
    match n with
    | 0 => None
    | S n' =>
        match pico t (ss_popped s) (sv_vec (ss_clauses s)) (ss_max s) with
        | PUnknown => None
        | PUnsat => Some (None, s, nx, S t)
        | PSat a =>
            let (bm, tm) := sat_model s a in
            let b1 := set_bools bm b in
            match tm with
            | [] => Some (Some b1, s, nx, S t)
            | _ =>
                bind (theory_lits s tm) (fun fs =>
                bind (T t b1 fs) (fun r =>
                  match r with
                  | TSat m => Some (Some m, s, nx, S t)
                  | TUnsat E => bind (sat_learn fold E nx s) (fun q => core_loop n' b1 (fst q) (snd q) (S t))
                  end))
            end
        end
    end.
  (** CheckSatCore, 127-206; the returned context differs in the SAT solver's learned clauses *)
  Definition check_core (n : nat) (c : ctx) : option (option box * ctx) :=
    bind (cx_box c) (fun b =>
    if b_empty b then Some (None, c) else
    let st := sv_vec (cx_stack c) in
    if existsb is_false st then Some (None, c) else
    match st with
    | [] => Some (Some b, c)
    | _ =>
        if match st with [f] => is_true f | _ => false end then Some (Some b, c)
        else bind (core_loop n b (cx_sat c) (cx_next c) (cx_calls c)) (fun r =>
               match r with (ob, s, nx, t) =>
                 Some (ob, {| cx_boxes := cx_boxes c; cx_stack := cx_stack c; cx_sat := s; cx_next := nx;
                              cx_mvars := cx_mvars c; cx_model := cx_model c; cx_calls := t |}) end)
    end).

  (** Tighten, 52-75 *)
  Definition tighten_dim (t : vtype) (i : ival) : option ival :=
    if dgt (i_diam i) precision then
      match t with
      | BINARY | BOOLEAN => Some (i_point (dZ 1))
      | CONTINUOUS =>
          let m := mid (ilb i) (iub i) in
          let h := ddiv precision (dZ 2) in
          Some (i_inter i (mk_ival (dsub m h) (dadd m h)))
      | INTEGER => bind (cast_int (mid (ilb i) (iub i))) (fun z => Some (i_point (dZ z)))
      end
    else Some i.
  Fixpoint tighten_dims (vs : list var) (is : list ival) : option (list ival) :=
    match vs, is with
    | v :: vs', i :: is' => bind (tighten_dim (vty v) i) (fun j => bind (tighten_dims vs' is') (fun r => Some (j :: r)))
    | _, _ => Some is
    end.
  Definition tighten (b : box) : option box := bind (tighten_dims (bvars b) (bvals b)) (fun is => Some (mkBox (bvars b) is)).

  (** ExtractModel, 421-433 *)
  Definition extract_model (mv : list var) (b : box) : box :=
    if Nat.eqb (length mv) (b_size b) then b
    else fold_left (fun nb v => b_add_dom nb v (ilb (b_getv b v)) (iub (b_getv b v)))
                   (filter (fun v => mem_var v mv) (bvars b)) box0.

  Definition cx_with_model (m : box) (c : ctx) : ctx :=
    {| cx_boxes := cx_boxes c; cx_stack := cx_stack c; cx_sat := cx_sat c; cx_next := cx_next c;
       cx_mvars := cx_mvars c; cx_model := m; cx_calls := cx_calls c |}.
  (** CheckSat, 208-220 *)
  Definition cx_check (n : nat) (c : ctx) : option (option box * ctx) :=
    bind (check_core n c) (fun r =>
      match r with
      | (Some b, c1) => bind (tighten b) (fun b1 => let m := extract_model (cx_mvars c1) b1 in Some (Some m, cx_with_model m c1))
      | (None, c1) => Some (None, cx_with_model (b_set_empty (cx_model c1)) c1)
      end).

  (** Push, 337-343 *)
  Definition cx_push (c : ctx) : option ctx :=
    bind (cx_box c) (fun b =>
      Some {| cx_boxes := sv_push_back b (sv_push (cx_boxes c)); cx_stack := sv_push (cx_stack c); cx_sat := sat_push (cx_sat c);
              cx_next := cx_next c; cx_mvars := cx_mvars c; cx_model := cx_model c; cx_calls := cx_calls c |}).
  (** Pop, 330-335 *)
  Definition cx_pop (c : ctx) : option ctx :=
    match sv_pop (cx_stack c), sv_pop (cx_boxes c) with
    | Ok (_, st), Ok (_, bs) =>
        bind (sat_pop (cx_sat c)) (fun s =>
          Some {| cx_boxes := bs; cx_stack := st; cx_sat := s; cx_next := cx_next c;
                  cx_mvars := cx_mvars c; cx_model := cx_model c; cx_calls := cx_calls c |})
    | _, _ => None
    end.

  (** ** Histories of calls.  [ONew v] is the construction by the user of the Variable [v], which gets the
      next identifier (symbolic_variable.cc: get_next_id). *)
  Inductive cop :=
  | ONew (v : var)
  | ODeclare (v : var) (model : bool)
  | ODeclareDom (v : var) (l u : dbl) (model : bool)     (* DeclareVariable(v, lb, ub), context.cc:48-53 *)
  | OSetInterval (v : var) (l u : dbl)
  | OAssert (f : formula)
  | OPush
  | OPop
  | OCheck (fuel : nat).
  Definition cx_step (o : cop) (c : ctx) : option (ctx * list (option box)) :=
    match o with
    | ONew v => if Nat.eqb (vid v) (cx_next c) then Some (cx_with_next (S (cx_next c)) c, []) else None
    | ODeclare v m => bind (cx_declare v m c) (fun c1 => Some (c1, []))
    | ODeclareDom v l u m => bind (cx_declare v m c) (fun c1 => bind (cx_set_interval v l u c1) (fun c2 => Some (c2, [])))
    | OSetInterval v l u => bind (cx_set_interval v l u c) (fun c1 => Some (c1, []))
    | OAssert f => bind (cx_assert f c) (fun c1 => Some (c1, []))
    | OPush => bind (cx_push c) (fun c1 => Some (c1, []))
    | OPop => bind (cx_pop c) (fun c1 => Some (c1, []))
    | OCheck n => bind (cx_check n c) (fun r => Some (snd r, [fst r]))
    end.
  (** The answers of a history: [None] unsat, [Some m] delta-sat with model [m]. *)
  Fixpoint cx_run (ops : list cop) (c : ctx) : option (ctx * list (option box)) :=
    match ops with
    | [] => Some (c, [])
    | o :: ops' => bind (cx_step o c) (fun p => bind (cx_run ops' (fst p)) (fun q => Some (fst q, snd p ++ snd q)))
    end.
End Ctx.
