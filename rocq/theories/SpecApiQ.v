(** * Specification: quantified formulas given to the library interface *)
From Coq Require Import List.
From Verif Require Import Syntax Wff.
Import ListNotations.

(** Finite literals; Boolean variables are used as formulas, the others as terms; the variables quantified over were made before the call, and
    the formulas inside quantifiers have no quantifiers, if-then-else and Boolean variables ([wfF], Wff.v). *)
Definition q_formula (nx : nat) (f : formula) : Prop := wfF (fun v => vty v <> BOOLEAN) (fun v => vty v = BOOLEAN) (fun v => vid v < nx) f.
