(** * Specification of the command line (C58) *)
From Coq Require Import ZArith Reals List Bool String Ascii.
From Flocq Require Import IEEE754.BinarySingleNaN.
From Verif Require Import Dbl Options SpecOptions Main.
Import ListNotations.
Local Open Scope string_scope.

(** [e] is what follows the last dot of [s]. *)
Definition has_extension (s e : string) : Prop := (exists p, s = p ++ "." ++ e) /\ forall a b, e <> a ++ "." ++ b.
(** The value of an option: given on the command line, or else the last one of the file, or else the default. *)
Definition in_force {T} (given : option T) (file : list T) (default : T) : T := match given with Some x => x | None => last file default end.
Definition flag_given (m : cmdline) (f : flag) : bool :=
  match f with
  | Polytope => cl_polytope m | ForallPolytope => cl_forall_polytope m | LocalOptimization => cl_local_opt m
  | WorklistFixpoint => cl_worklist m | ProduceModels => cl_produce_models m | Smtlib2Compliant => cl_smtlib2 m
  end.
(** What the validators of the options ensure (dreal_main.cc:78-82, 116-117): numbers are above 0 (and finite), the format is one of three. *)
Definition validated (m : cmdline) : Prop :=
  cl_valid m = true -> (forall p, cl_precision m = Some p -> is_finite p = true /\ (0 < B2R p)%R) /\ (cl_format m = "auto" \/ cl_format m = "smt2" \/ cl_format m = "dr").
(** One input: a named file or, with --in, standard input. *)
Definition one_input (m : cmdline) : Prop := (exists a, cl_args m = [a] /\ a <> "") \/ (cl_args m = [] /\ cl_in m = true).
Definition name_of (m : cmdline) : string := match cl_args m with a :: _ => a | [] => "" end.
