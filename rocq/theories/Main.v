(** * The command-line program: dreal/dreal_main.cc *)
From Coq Require Import ZArith List Bool String Ascii.
From Verif Require Import Dbl Options.
Import ListNotations.
Local Open Scope string_scope.

(** What ezOptionParser hands over (external): the options are those added in AddOptions, dreal_main.cc:63-229, with aliases resolved;
    [None]: not set.  --verbose only sets the level of the log and is left out. *)
Record cmdline := {
  cl_valid : bool;                      (* gotRequired, gotExpected and gotValid, 235-257 *)
  cl_args : list string;                (* what is not an option: args_, 259-261 *)
  cl_version : bool; cl_help : bool; cl_in : bool; cl_format : string; cl_debug_scanning : bool; cl_debug_parsing : bool;
  cl_precision : option dbl; cl_produce_models : bool; cl_smtlib2 : bool; cl_polytope : bool; cl_forall_polytope : bool;
  cl_worklist : bool; cl_local_opt : bool; cl_dump : bool; cl_jobs : option Z;
  cl_ftol_rel : option dbl; cl_ftol_abs : option dbl; cl_maxeval : option Z; cl_maxtime : option dbl;
  cl_phase : option Z; cl_seed : option Z }.

(** Config, solver/config.h:170-226: the part set-option can reach (Options.v) and the rest, without stack_left_box_first_ and brancher_,
    which have no option. *)
Record xconfig := { xc_file : config; xc_dump : oval bool; xc_jobs : oval Z; xc_ftol_rel : oval dbl; xc_ftol_abs : oval dbl;
  xc_maxeval : oval Z; xc_maxtime : oval dbl; xc_phase : oval Z; xc_seed : oval Z }.
(** kDefaultPrecision ... kDefaultNloptMaxTime, config.h:161-165: the doubles next to 10^-3, 10^-6 and 10^-2 *)
Definition dtenth (k : Z) : dbl := ddiv (dZ 1) (dZ (10 ^ k)).
Definition xconfig_init : xconfig :=
  {| xc_file := {| cf_precision := ov_init (dtenth 3); cf_polytope := ov_init false; cf_forall_polytope := ov_init false; cf_local_opt := ov_init false;
                   cf_worklist := ov_init false; cf_produce_models := ov_init false; cf_smtlib2 := ov_init false |};
     xc_dump := ov_init false; xc_jobs := ov_init 1%Z; xc_ftol_rel := ov_init (dtenth 6); xc_ftol_abs := ov_init (dtenth 6);
     xc_maxeval := ov_init 100%Z; xc_maxtime := ov_init (dtenth 2); xc_phase := ov_init 2%Z; xc_seed := ov_init 0%Z |}.

(** if (opt_.isSet(...)) config_.mutable_...().set_from_command_line(...) *)
Definition take {T} (o : option T) (v : oval T) : oval T := match o with Some x => ov_cl x v | None => v end.
Definition raised (b : bool) : option bool := if b then Some true else None.
(** ExtractOptions, 273-418.  The seed is read as unsigned long and stored in a uint32_t (409-417; config.h:226). *)
Definition extract (m : cmdline) (c : xconfig) : xconfig :=
  let f := xc_file c in
  {| xc_file := {| cf_precision := take (cl_precision m) (cf_precision f); cf_polytope := take (raised (cl_polytope m)) (cf_polytope f);
                   cf_forall_polytope := take (raised (cl_forall_polytope m)) (cf_forall_polytope f); cf_local_opt := take (raised (cl_local_opt m)) (cf_local_opt f);
                   cf_worklist := take (raised (cl_worklist m)) (cf_worklist f); cf_produce_models := take (raised (cl_produce_models m)) (cf_produce_models f);
                   cf_smtlib2 := take (raised (cl_smtlib2 m)) (cf_smtlib2 f) |};
     xc_dump := take (raised (cl_dump m)) (xc_dump c); xc_jobs := take (cl_jobs m) (xc_jobs c);
     xc_ftol_rel := take (cl_ftol_rel m) (xc_ftol_rel c); xc_ftol_abs := take (cl_ftol_abs m) (xc_ftol_abs c);
     xc_maxeval := take (cl_maxeval m) (xc_maxeval c); xc_maxtime := take (cl_maxtime m) (xc_maxtime c);
     xc_phase := take (cl_phase m) (xc_phase c); xc_seed := take (option_map (fun s => Z.modulo s (2 ^ 32)) (cl_seed m)) (xc_seed c) |}.

(** get_extension, util/filesystem.cc:30-38; name.rfind('.') *)
Fixpoint after_dot (s : string) : option string :=
  match s with
  | EmptyString => None
  | String c r => match after_dot r with Some e => Some e | None => if Ascii.eqb c "."%char then Some r else None end
  end.
Definition get_extension (s : string) : string := match after_dot s with Some e => e | None => "" end.

(** ValidateOptions, 231-271 *)
Definition validate (m : cmdline) : bool :=
  cl_valid m && (cl_version m || negb (cl_help m || (match cl_args m with [] => true | _ => false end && negb (cl_in m)) || Nat.ltb 1 (List.length (cl_args m)))).

(** What the program does: stop with a code after printing the version, the usage or a complaint; or hand [fe] the input and return 0.
    An input that cannot be opened is skipped without a word (parse_file, smt2/driver.cc:90-100, dr/driver.cc:53-63; RunSmt2 and RunDr, smt2/run.cc,
    dr/run.cc, ignore its result). *)
Inductive message := MsgVersion | MsgUsage | MsgNotFound | MsgUnknownExtension.
Inductive front := FrontSmt2 | FrontDr.
Inductive input := Stdin | OfFile (name : string) | Nothing.
Inductive outcome := Stop (code : Z) (msg : message) | Ran (fe : front) (i : input) (c : xconfig) (scanning parsing : bool).
Definition exit_code (o : outcome) : Z := match o with Stop k _ => k | Ran _ _ _ _ _ => 0%Z end.

Section Run.
  (** stat: the name is that of a regular file; ifstream::good *)
  Variables (file_exists readable : string -> bool).
  Definition parse_file (name : string) : input := if String.eqb name "" then Stdin else if readable name then OfFile name else Nothing.
  (** Run, 420-460 *)
  Definition main (m : cmdline) : outcome :=
    if cl_version m then Stop 0 MsgVersion
    else if cl_help m then Stop 0 MsgUsage
    else if negb (validate m) then Stop 1 MsgUsage
    else
      let c := extract m xconfig_init in
      let name := match cl_args m with a :: _ => a | [] => "" end in
      if match cl_args m with a :: _ => String.eqb a "" | [] => false end then Stop 1 MsgUsage
      else if negb (cl_in m) && negb (file_exists name) then Stop 1 MsgNotFound
      else
        let ext := get_extension name in
        if String.eqb (cl_format m) "smt2" || (String.eqb (cl_format m) "auto" && (String.eqb ext "smt2" || cl_in m)) then
          Ran FrontSmt2 (parse_file name) c (cl_debug_scanning m) (cl_debug_parsing m)
        else if String.eqb (cl_format m) "dr" || (String.eqb (cl_format m) "auto" && String.eqb ext "dr") then
          Ran FrontDr (parse_file name) c (cl_debug_scanning m) (cl_debug_parsing m)
        else Stop 1 MsgUnknownExtension.
End Run.
