(** * Properties of the elimination of if-then-else terms (C16)

    [ite_process fold K f n = (f', s)]: [f'] replaces [f]; [it_vars s] are the new variables; [n] is the
    first unused identifier.  [it_nodes]/[it_cmps] list the terms and comparisons the run built with
    the simplifying operators; the hypotheses say that the simplifications among those were exact. *)
From Coq Require Import ZArith Reals List Bool.
From Verif Require Import Dbl Syntax Sem FormulaCons SpecForm IEval IteElim SpecIte IteElimProofs ExamplesForm ExamplesIte.
Import ListNotations.

(** True for some value of the new variables exactly when the original formula is true. *)
Theorem C16_ite_elimination_equisatisfiable : forall M D fold K f n f' s,
  ite_process fold K f n = (f', s) -> (forall v, In v (avF f) -> vid v < n) ->
  (forall x, In x (it_nodes s) -> node_exact M D K x) ->
  (forall a b, In (a, b) (it_cmps s) -> cmp_exact M fold a b) ->
  forall rho, holds M f rho <-> exists rho', agree_off (it_vars s) rho rho' /\ holds M f' rho'.
Proof. exact (fun M D fold K f n f' s E B O1 O2 => proj1 (proj2 (proj2 (proj2 (proj2 (proj2 (process_spec M D fold K f n f' s E B O1 O2))))))). Qed.
Print Assumptions C16_ite_elimination_equisatisfiable.

(** No if-then-else term is left, not even under quantifiers. *)
Theorem C16_no_ite_left : forall M D fold K f n f' s,
  ite_process fold K f n = (f', s) -> (forall v, In v (avF f) -> vid v < n) ->
  (forall x, In x (it_nodes s) -> node_exact M D K x) ->
  (forall a b, In (a, b) (it_cmps s) -> cmp_exact M fold a b) ->
  hasIteF f' = false.
Proof. exact (fun M D fold K f n f' s E B O1 O2 => proj1 (proj2 (proj2 (process_spec M D fold K f n f' s E B O1 O2)))). Qed.
Print Assumptions C16_no_ite_left.

(** The new variables are real-valued and new; the result mentions only issued identifiers. *)
Theorem C16_fresh_variables : forall M D fold K f n f' s,
  ite_process fold K f n = (f', s) -> (forall v, In v (avF f) -> vid v < n) ->
  (forall x, In x (it_nodes s) -> node_exact M D K x) ->
  (forall a b, In (a, b) (it_cmps s) -> cmp_exact M fold a b) ->
  (forall v, In v (it_vars s) -> vty v = CONTINUOUS /\ n <= vid v < it_next s) /\
  (forall v, In v (fvF f') -> vid v < it_next s).
Proof. exact (fun M D fold K f n f' s E B O1 O2 => let P := process_spec M D fold K f n f' s E B O1 O2 in
  conj (proj1 (proj2 (proj2 (proj2 (proj2 P))))) (proj1 (proj2 P))). Qed.
Print Assumptions C16_fresh_variables.

(** A solution at which every term of [f] is defined extends to one at which every term of the result
    is defined.  (For a quantified body with an if-then-else term this cannot be: the new variable is
    then quantified over all reals.) *)
Theorem C16_defined_solutions_survive : forall M D fold K f n f' s,
  ite_process fold K f n = (f', s) -> (forall v, In v (avF f) -> vid v < n) ->
  (forall x, In x (it_nodes s) -> node_exact M D K x) ->
  (forall a b, In (a, b) (it_cmps s) -> cmp_exact M fold a b) ->
  qplainF f ->
  forall rho, solves M D f rho -> exists rho', agree_off (it_vars s) rho rho' /\ solves M D f' rho'.
Proof. exact (fun M D fold K f n f' s E B O1 O2 Q rho => proj2 (proj2 (proj2 (proj2 (proj2 (proj2 (process_spec M D fold K f n f' s E B O1 O2)))))) rho Q). Qed.
Print Assumptions C16_defined_solutions_survive.

Example C16_example :
  (forall v, In v (avF ite_in) -> vid v < 10) /\
  (forall M D x, node_exact M D kplain x) /\ (forall M a b, cmp_exact M nofold a b) /\
  (let (f', s) := ite_process nofold kplain ite_in 10 in
   length (it_vars s) = 2 /\ it_next s = 13 /\ f' <> ite_in /\ hasIteF ite_in = true).
Proof. exact (conj ite_in_bnd (conj kplain_exact (conj nofold_exact ite_in_run))). Qed.
