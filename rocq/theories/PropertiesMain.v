(** * The command line (C58).  [main] (Main.v) is the program after the option parser; [fx] and [rd] say which files exist and can be read. *)
From Coq Require Import ZArith Reals List Bool String.
From Flocq Require Import IEEE754.BinarySingleNaN.
From Verif Require Import Dbl Options SpecOptions OptionsProofs Main SpecMain MainProofs ExamplesCtx ExamplesMain.
Import ListNotations.
Local Open Scope string_scope.

(** ** A command line runs a front end exactly if it is valid, names one input that exists (or says --in), and the kind of the input is known. *)
Theorem C58_runs : forall fx rd m, validated m -> ((exists fe i c a b, main fx rd m = Ran fe i c a b) <->
  cl_version m = false /\ cl_help m = false /\ cl_valid m = true /\ one_input m /\ (cl_in m = true \/ fx (name_of m) = true) /\
  (cl_format m = "auto" -> cl_in m = true \/ has_extension (name_of m) "smt2" \/ has_extension (name_of m) "dr")).
Proof. exact runs_iff. Qed.
Print Assumptions C58_runs.
(** ** The exit code is 0 exactly for --version, --help and when a front end ran; otherwise it is 1. *)
Theorem C58_exit_code : forall fx rd m, (exit_code (main fx rd m) = 0%Z \/ exit_code (main fx rd m) = 1%Z) /\
  (exit_code (main fx rd m) = 0%Z <-> cl_version m = true \/ cl_help m = true \/ exists fe i c a b, main fx rd m = Ran fe i c a b).
Proof. exact exit_ok. Qed.
Print Assumptions C58_exit_code.
(** ** The front end is the one of --format, else that of the extension, else (--in) that of SMT-LIB; the tracing options reach it. *)
Theorem C58_front_end : forall fx rd m fe i c a b, main fx rd m = Ran fe i c a b ->
  (cl_format m = "smt2" -> fe = FrontSmt2) /\ (cl_format m = "dr" -> fe = FrontDr) /\
  (cl_format m = "auto" -> cl_in m = false -> (fe = FrontSmt2 <-> has_extension (name_of m) "smt2") /\ (fe = FrontDr <-> has_extension (name_of m) "dr")) /\
  (cl_format m = "auto" -> cl_in m = true -> fe = FrontSmt2) /\ a = cl_debug_scanning m /\ b = cl_debug_parsing m.
Proof. exact front_end. Qed.
Print Assumptions C58_front_end.
(** ** The input is the named file, and standard input if none is named.  Missing: --in together with a file (refuted below). *)
Theorem C58_input_partial : forall fx rd m fe i c a b, main fx rd m = Ran fe i c a b ->
  (cl_args m = [] -> i = Stdin) /\ (forall f, cl_args m = [f] -> rd f = true -> i = OfFile f) /\ (i = Nothing -> exists f, cl_args m = [f] /\ rd f = false).
Proof. exact which_input. Qed.
Print Assumptions C58_input_partial.
(** ** Throughout a run, after any set-option commands of the file, an option has the value given on the command line, else the last one accepted
    from the file, else the default.  Missing: seeds of 2^32 and above (refuted below). *)
Theorem C58_options_partial : forall fx rd m fe i c a b, main fx rd m = Ran fe i c a b -> forall fmt cmds, let f := oc_cfg (set_run fmt (xc_file c) cmds) in
  ov_val (cf_precision f) = in_force (cl_precision m) (precision_values cmds) (dtenth 3) /\
  (forall g, ov_val (flag_of f g) = in_force (if flag_given m g then Some true else None) (flag_values g cmds) false) /\
  ov_val (xc_dump c) = cl_dump m /\ ov_val (xc_jobs c) = in_force (cl_jobs m) [] 1%Z /\
  ov_val (xc_ftol_rel c) = in_force (cl_ftol_rel m) [] (dtenth 6) /\ ov_val (xc_ftol_abs c) = in_force (cl_ftol_abs m) [] (dtenth 6) /\
  ov_val (xc_maxeval c) = in_force (cl_maxeval m) [] 100%Z /\ ov_val (xc_maxtime c) = in_force (cl_maxtime m) [] (dtenth 2) /\
  ov_val (xc_phase c) = in_force (cl_phase m) [] 2%Z /\
  forall s, cl_seed m = Some s -> (0 <= s < 2 ^ 32)%Z -> ov_val (xc_seed c) = s.
Proof. exact run_options. Qed.
Print Assumptions C58_options_partial.
(** ** The precision of every check of a run is finite and above 0, as C02 asks. *)
Theorem C58_precision_positive : forall fx rd m fe i c a b, main fx rd m = Ran fe i c a b -> validated m -> forall fmt cmds, (forall k v, In (SetNum k v) cmds -> is_finite v = true) ->
  let p := ov_val (cf_precision (oc_cfg (set_run fmt (xc_file c) cmds))) in is_finite p = true /\ (0 < B2R p)%R.
Proof. exact run_precision_pos. Qed.
Print Assumptions C58_precision_positive.
(** dreal --precision 1 --polytope --jobs 4 --random-seed 7 x.tar.smt2 *)
Example C58_example : validated (line1 7) /\ (has_extension "x.tar.smt2" "smt2" /\ one_input (line1 0)) /\
  exists c, main (fun _ => true) (fun _ => true) (line1 7) = Ran FrontSmt2 (OfFile "x.tar.smt2") c false false.
Proof. exact (conj (line1_validated 7) (conj line1_extension (line1_runs 7 (fun _ => true) eq_refl))). Qed.
(** ** The seed 4294967296 becomes 0. *)
Theorem C58_seed_refuted : exists c, main (fun _ => true) (fun _ => true) (line1 (2 ^ 32)) = Ran FrontSmt2 (OfFile "x.tar.smt2") c false false /\
  cl_seed (line1 (2 ^ 32)) = Some (2 ^ 32)%Z /\ ov_val (xc_seed c) = 0%Z.
Proof.
  exact (match line1_runs (2 ^ 32) (fun _ => true) eq_refl with ex_intro _ c H => ex_intro _ c (conj H (conj eq_refl (seed_lost _ _ c _ eq_refl H))) end).
Qed.
Print Assumptions C58_seed_refuted.
(** ** dreal --in x.dr reads x.dr, as SMT-LIB; if the named file does not exist nothing is read, and the exit code is 0. *)
Theorem C58_in_refuted : forall fx rd, (rd "x.dr" = true -> exists c, main fx rd (line2 "x.dr") = Ran FrontSmt2 (OfFile "x.dr") c false false) /\
  (rd "x.smt2" = false -> exists c, main fx rd (line2 "x.smt2") = Ran FrontSmt2 Nothing c false false).
Proof. exact (fun fx rd => conj (in_reads_file fx rd) (in_reads_nothing fx rd)). Qed.
Print Assumptions C58_in_refuted.
