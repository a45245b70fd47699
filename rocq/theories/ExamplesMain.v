(** Command lines (C58) *)
From Coq Require Import ZArith Reals Lra Lia List Bool String Ascii.
From Flocq Require Import Core.Core IEEE754.BinarySingleNaN.
From Verif Require Import Dbl DblProofs ExamplesForm ExamplesBox ExamplesCtx Options SpecOptions OptionsProofs Main SpecMain MainProofs.
Import ListNotations.
Local Open Scope string_scope.

(** dreal [the rest] with no option *)
Definition line0 (args : list string) : cmdline :=
  {| cl_valid := true; cl_args := args; cl_version := false; cl_help := false; cl_in := false; cl_format := "auto"; cl_debug_scanning := false; cl_debug_parsing := false;
     cl_precision := None; cl_produce_models := false; cl_smtlib2 := false; cl_polytope := false; cl_forall_polytope := false; cl_worklist := false; cl_local_opt := false;
     cl_dump := false; cl_jobs := None; cl_ftol_rel := None; cl_ftol_abs := None; cl_maxeval := None; cl_maxtime := None; cl_phase := None; cl_seed := None |}.
(** dreal --precision 1 --polytope --jobs 4 --random-seed s x.tar.smt2 *)
Definition line1 (s : Z) : cmdline :=
  {| cl_valid := true; cl_args := ["x.tar.smt2"]; cl_version := false; cl_help := false; cl_in := false; cl_format := "auto"; cl_debug_scanning := false; cl_debug_parsing := false;
     cl_precision := Some (dZ 1); cl_produce_models := false; cl_smtlib2 := false; cl_polytope := true; cl_forall_polytope := false; cl_worklist := false; cl_local_opt := false;
     cl_dump := false; cl_jobs := Some 4%Z; cl_ftol_rel := None; cl_ftol_abs := None; cl_maxeval := None; cl_maxtime := None; cl_phase := None; cl_seed := Some s |}.
(** dreal --in f *)
Definition line2 (f : string) : cmdline :=
  {| cl_valid := true; cl_args := [f]; cl_version := false; cl_help := false; cl_in := true; cl_format := "auto"; cl_debug_scanning := false; cl_debug_parsing := false;
     cl_precision := None; cl_produce_models := false; cl_smtlib2 := false; cl_polytope := false; cl_forall_polytope := false; cl_worklist := false; cl_local_opt := false;
     cl_dump := false; cl_jobs := None; cl_ftol_rel := None; cl_ftol_abs := None; cl_maxeval := None; cl_maxtime := None; cl_phase := None; cl_seed := None |}.
Lemma line1_runs s rd : rd "x.tar.smt2" = true -> exists c, main (fun _ => true) rd (line1 s) = Ran FrontSmt2 (OfFile "x.tar.smt2") c false false.
Proof. intros H. exists (extract (line1 s) xconfig_init). unfold main. cbn. unfold parse_file. rewrite H. reflexivity. Qed.
Lemma line1_validated s : validated (line1 s).
Proof. intros _. split; [|left; reflexivity]. intros p E. assert (p = dZ 1) by (cbn [line1 cl_precision] in E; congruence). subst p. split; [apply dZ_fin; lia|rewrite dZ_R by lia; lra]. Qed.
Lemma line1_extension : has_extension "x.tar.smt2" "smt2" /\ one_input (line1 0).
Proof. split; [apply extension_ok; [discriminate|reflexivity]|left; exists "x.tar.smt2"; split; [reflexivity|discriminate]]. Qed.
Lemma seed_lost fx rd c i : fx "x.tar.smt2" = true -> main fx rd (line1 (2 ^ 32)) = Ran FrontSmt2 i c false false -> ov_val (xc_seed c) = 0%Z.
Proof. intros _ H. apply run_when in H. destruct H as (_ & _ & _ & _ & _ & _ & -> & _). reflexivity. Qed.
Lemma in_reads_file fx rd : rd "x.dr" = true -> exists c, main fx rd (line2 "x.dr") = Ran FrontSmt2 (OfFile "x.dr") c false false.
Proof. intros H. exists (extract (line2 "x.dr") xconfig_init). unfold main. cbn. unfold parse_file. rewrite H. reflexivity. Qed.
Lemma in_reads_nothing fx rd : rd "x.smt2" = false -> exists c, main fx rd (line2 "x.smt2") = Ran FrontSmt2 Nothing c false false.
Proof. intros H. exists (extract (line2 "x.smt2") xconfig_init). unfold main. cbn. unfold parse_file. rewrite H. reflexivity. Qed.
