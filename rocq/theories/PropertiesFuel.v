(** * C53: building terms, transforming them and reading files always finishes

    [finishes] and [finishes2] are in SpecFuel.v; the operations are modelled in ExprAlg.v, Subst.v, Diff.v,
    DeltaStr.v, Smt2.v, Dr.v and Minim.v. *)
From Coq Require Import ZArith List Bool.
From Flocq Require Import IEEE754.BinarySingleNaN.
From Verif Require Import Dbl Syntax FormulaCons MathConv Order Interval ExprAlg SpecFuel Subst Diff DeltaStr Context Smt2 Dr Minim AlgFuel AlgFuelTop AlgFuelSmt AlgFuelStr ExamplesAlg.
Import ListNotations.

(** +, *, -, unary - and the comparisons on any two expressions *)
Theorem C53_arithmetic_finishes : forall fpow a b,
  finishes (fun n => mk_add fpow n a b) /\ finishes (fun n => mk_mul fpow n a b) /\ finishes (fun n => mk_sub fpow n a b) /\
  finishes (fun n => mk_neg fpow n a) /\ forall op, finishes (fun n => mk_relm fpow n op a b).
Proof. exact (fun fpow a b => conj (ends_add fpow a b) (conj (ends_mul fpow a b) (conj (ends_sub fpow a b) (conj (ends_neg fpow a) (fun op => ends_relm fpow op a b))))). Qed.
Print Assumptions C53_arithmetic_finishes.

(** Division, pow and the functions *)
Theorem C53_functions_finish : forall fpow o o' a b, fst (mk_bin fpow o a b) <> Fuel /\ fst (mk_un o' a) <> Fuel.
Proof. exact functions_finish. Qed.
Print Assumptions C53_functions_finish.

(** Substitute *)
Theorem C53_substitution_finishes : forall fpow sE sF e f,
  finishes (fun n => SubstituteE fpow n sE sF e) /\ finishes (fun n => SubstituteF fpow n sE sF f).
Proof. exact (fun fpow sE sF e f => conj (ends_SubstituteE fpow sE sF e) (ends_SubstituteF fpow sE sF f)). Qed.
Print Assumptions C53_substitution_finishes.

(** Differentiate *)
Theorem C53_differentiation_finishes : forall fpow x e, finishes (fun n => diff fpow n x e).
Proof. exact ends_diff. Qed.
Print Assumptions C53_differentiation_finishes.

(** DeltaStrengthen and DeltaWeaken, for formulas without if-then-else: the operands of == and != are visited a
    second time after they were rebuilt *)
Theorem C53_strengthening_finishes_partial : forall fpow f d, hasIteF f = false ->
  finishes2 (fun n k => DeltaStrengthen fpow n k f d) /\ finishes2 (fun n k => DeltaWeaken fpow n k f d).
Proof. exact (fun fpow f d H => conj (ends_strengthen fpow f d H) (ends_strengthen fpow f (dopp d) H)). Qed.
Print Assumptions C53_strengthening_finishes_partial.

(** Reading any SMT-LIB script and any .dr file, and Minimize on any context *)
Theorem C53_reading_finishes : forall fpow alloc evl cs s d nx fs c,
  finishes (fun n => script fpow n alloc cs s) /\ finishes (fun n => dr_calls fpow n evl d nx) /\ finishes (fun n => minimize fpow n fs c).
Proof. exact (fun fpow alloc evl cs s d nx fs c => conj (ends_script fpow alloc cs s) (conj (ends_dr_calls fpow evl d nx) (ends_minimize fpow fs c))). Qed.
Print Assumptions C53_reading_finishes.

(** A run that recurses (2 x y^2 times 3 x y): it returns 6 x^2 y^3 with a budget of 5, and a budget of 1 is too small *)
Example C53_example : forall fpow, gives (mk_mul fpow 5 prod1 prod2) (EMul (dZ 6) [(ex, kk 2); (ey, kk 3)]) = true /\ fst (mk_mul fpow 1 prod1 prod2) = Fuel /\ hasIteF (FRel RNeq prod1 prod2) = false.
Proof. exact finish_example. Qed.
Print Assumptions C53_example.
