(** * Option values and the set-option / get-option commands *)
From Coq Require Import List Bool String.
From Verif Require Import Dbl.
Import ListNotations.

(** ** OptionValue: dreal/util/option_value.h:31-124 *)
Section OV.
  Context {T : Type}.
  (** enum class Type, 34-39 *)
  Inductive otype := TDefault | TFile | TCommandLine | TCode.
  Record oval := { ov_val : T; ov_type : otype }.
  (** constructor, 42-43 *)
  Definition ov_init (d : T) : oval := {| ov_val := d; ov_type := TDefault |}.
  (** operator=(const T&) and operator=(T&&), 63-76 *)
  Definition ov_assign (x : T) (o : oval) : oval := {| ov_val := x; ov_type := TCode |}.
  (** set_from_command_line, 82-87 *)
  Definition ov_cl (x : T) (o : oval) : oval :=
    match ov_type o with TCode => o | _ => {| ov_val := x; ov_type := TCommandLine |} end.
  (** set_from_file, 93-106 *)
  Definition ov_file (x : T) (o : oval) : oval :=
    match ov_type o with
    | TDefault | TFile => {| ov_val := x; ov_type := TFile |}
    | TCommandLine | TCode => o
    end.

  (** A write from one of the three sources. *)
  Inductive source := SFile | SCommandLine | SCode.
  Definition ov_write (o : oval) (w : source * T) : oval :=
    match fst w with
    | SFile => ov_file (snd w) o
    | SCommandLine => ov_cl (snd w) o
    | SCode => ov_assign (snd w) o
    end.
  Definition ov_run (d : T) (ws : list (source * T)) : oval := fold_left ov_write ws (ov_init d).
End OV.
Arguments oval T : clear implicits.

(** ** The part of Config that set-option can reach: dreal/solver/config.h:170-181 *)
Record config := {
  cf_precision : oval dbl; cf_polytope : oval bool; cf_forall_polytope : oval bool; cf_local_opt : oval bool;
  cf_worklist : oval bool; cf_produce_models : oval bool; cf_smtlib2 : oval bool }.

Definition with_precision c x := {| cf_precision := x; cf_polytope := cf_polytope c; cf_forall_polytope := cf_forall_polytope c;
  cf_local_opt := cf_local_opt c; cf_worklist := cf_worklist c; cf_produce_models := cf_produce_models c; cf_smtlib2 := cf_smtlib2 c |}.
Definition with_polytope c x := {| cf_precision := cf_precision c; cf_polytope := x; cf_forall_polytope := cf_forall_polytope c;
  cf_local_opt := cf_local_opt c; cf_worklist := cf_worklist c; cf_produce_models := cf_produce_models c; cf_smtlib2 := cf_smtlib2 c |}.
Definition with_forall_polytope c x := {| cf_precision := cf_precision c; cf_polytope := cf_polytope c; cf_forall_polytope := x;
  cf_local_opt := cf_local_opt c; cf_worklist := cf_worklist c; cf_produce_models := cf_produce_models c; cf_smtlib2 := cf_smtlib2 c |}.
Definition with_local_opt c x := {| cf_precision := cf_precision c; cf_polytope := cf_polytope c; cf_forall_polytope := cf_forall_polytope c;
  cf_local_opt := x; cf_worklist := cf_worklist c; cf_produce_models := cf_produce_models c; cf_smtlib2 := cf_smtlib2 c |}.
Definition with_worklist c x := {| cf_precision := cf_precision c; cf_polytope := cf_polytope c; cf_forall_polytope := cf_forall_polytope c;
  cf_local_opt := cf_local_opt c; cf_worklist := x; cf_produce_models := cf_produce_models c; cf_smtlib2 := cf_smtlib2 c |}.
Definition with_produce_models c x := {| cf_precision := cf_precision c; cf_polytope := cf_polytope c; cf_forall_polytope := cf_forall_polytope c;
  cf_local_opt := cf_local_opt c; cf_worklist := cf_worklist c; cf_produce_models := x; cf_smtlib2 := cf_smtlib2 c |}.
Definition with_smtlib2 c x := {| cf_precision := cf_precision c; cf_polytope := cf_polytope c; cf_forall_polytope := cf_forall_polytope c;
  cf_local_opt := cf_local_opt c; cf_worklist := cf_worklist c; cf_produce_models := cf_produce_models c; cf_smtlib2 := x |}.

(** ** Context::Impl options: dreal/solver/context_impl.cc:77-86, 366-419 *)
Record octx := { oc_opts : list (string * string); oc_cfg : config }.   (* option_ (newest first), config_ *)

Section Ctx.
  (** fmt::format("{}", double): the decimal rendering is not modelled. *)
  Variable fmt : dbl -> string.
  Local Open Scope string_scope.

  (** ParseBooleanOption, 77-86: [None] = throws *)
  Definition parse_bool (v : string) : option bool :=
    if String.eqb v "true" then Some true else if String.eqb v "false" then Some false else None.

  (** option_[key] = val *)
  Definition store (k v : string) (s : octx) : octx := {| oc_opts := (k, v) :: oc_opts s; oc_cfg := oc_cfg s |}.
  Definition set_cfg (c : config) (s : octx) : octx := {| oc_opts := oc_opts s; oc_cfg := c |}.

  (** SetOption(key, double), 366-377.  The boolean says whether an exception was thrown; the state is
      the one left behind.  [val <= 0.0] is false for a NaN. *)
  Definition set_num (k : string) (v : dbl) (s : octx) : octx * bool :=
    let s1 := store k (fmt v) s in
    if String.eqb k ":precision" then
      if dle v dzero then (s1, true)
      else (set_cfg (with_precision (oc_cfg s1) (ov_file v (cf_precision (oc_cfg s1)))) s1, false)
    else (s1, false).

  Definition set_flag (k v : string) (s1 : octx) (upd : config -> oval bool -> config) (get : config -> oval bool) : octx * bool :=
    match parse_bool v with
    | None => (s1, true)
    | Some b => (set_cfg (upd (oc_cfg s1) (ov_file b (get (oc_cfg s1)))) s1, false)
    end.

  (** SetOption(key, string), 392-419 (the keys of 400 and 404 lack the colon in the source) *)
  Definition set_str (k v : string) (s : octx) : octx * bool :=
    let s1 := store k v s in
    if String.eqb k ":polytope" then set_flag k v s1 with_polytope cf_polytope
    else if String.eqb k ":forall-polytope" || String.eqb k "forall_polytope" then set_flag k v s1 with_forall_polytope cf_forall_polytope
    else if String.eqb k ":local-optimization" || String.eqb k "local_optimization" then set_flag k v s1 with_local_opt cf_local_opt
    else if String.eqb k ":worklist-fixpoint" || String.eqb k ":worklist_fixpoint" then set_flag k v s1 with_worklist cf_worklist
    else if String.eqb k ":produce-models" || String.eqb k ":produce_models" then set_flag k v s1 with_produce_models cf_produce_models
    else if String.eqb k ":smtlib2-compliant" || String.eqb k ":smtlib2_compliant" then set_flag k v s1 with_smtlib2 cf_smtlib2
    else (s1, false).

  Fixpoint lookup (k : string) (l : list (string * string)) : option string :=
    match l with [] => None | (k', v) :: l' => if String.eqb k k' then Some v else lookup k l' end.

  (** GetOption, 379-390 *)
  Definition get_option (k : string) (s : octx) : option string :=
    match lookup k (oc_opts s) with
    | Some v => Some v
    | None => if String.eqb k ":precision" then Some (fmt (ov_val (cf_precision (oc_cfg s)))) else None
    end.

  (** set-option commands: smt2/parser.yy:243-262 *)
  Inductive set_cmd := SetNum (k : string) (v : dbl) | SetStr (k v : string).
  Definition set_step (s : octx) (c : set_cmd) : octx :=
    match c with SetNum k v => fst (set_num k v s) | SetStr k v => fst (set_str k v s) end.
  Definition set_throws (s : octx) (c : set_cmd) : bool :=
    match c with SetNum k v => snd (set_num k v s) | SetStr k v => snd (set_str k v s) end.
  Definition octx_init (c : config) : octx := {| oc_opts := []; oc_cfg := c |}.
  (** A history of calls on one context, exceptions being caught by the caller. *)
  Definition set_run (c : config) (cmds : list set_cmd) : octx := fold_left set_step cmds (octx_init c).
End Ctx.
