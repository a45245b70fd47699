(** * Properties of evaluation and pruning (C07, C08, C40, C41, C42) *)
From Coq Require Import ZArith Reals List Bool.
From Flocq Require Import IEEE754.BinarySingleNaN.
From Verif Require Import Dbl Syntax Sem Interval MathConv SpecForm FormulaCons Nnf IEval IEvalProofs Contr ContrProofs IbexConv IbexConvProofs ContrTop
  StdInterp ExamplesForm ExamplesBox ExamplesEval ExamplesContr.
Import ListNotations.

(** ** C41: for every interval arithmetic [A] whose operations enclose the real ones, the result
    contains the value at every point of the box where the expression is defined, and a result is
    produced for every expression without if-then-else and uninterpreted functions. *)
Theorem C41_interval_evaluation_encloses : forall M D A, ia_ok M D A -> rc_ok M -> forall b rho e i,
  box_ok b -> in_box rho b -> (forall v, In v (fvE e) -> In v (bvars b)) -> finE e -> defE M D e rho ->
  evalI A e b = Some i -> imem (evalE M e rho) i.
Proof. exact (fun M D A HA HM b rho e i K H V F Df E => evalI_encl M D A HA HM b rho K H e V F Df i E). Qed.
Print Assumptions C41_interval_evaluation_encloses.
Theorem C41_interval_evaluation_total : forall A b e, (exists i, evalI A e b = Some i) <-> evaluable e = true.
Proof. exact evalI_total. Qed.
Print Assumptions C41_interval_evaluation_total.
Example C41_example : ia_ok Mstd stdD lin /\ rc_ok Mstd /\ box_ok exb /\ evaluable (EAdd dzero [(ex_x, dZ 1); (EVar vi, dZ 1)]) = true.
Proof. exact (conj lin_ok (conj Mstd_rc (conj exb_ok eq_refl))). Qed.

(** ** C07 *)
Theorem C07_three_valued_evaluation_sound : forall M D A esub, ia_ok M D A -> rc_ok M -> forall f b t i,
  box_ok b -> (forall v, In v (fvF f) -> In v (bvars b)) ->
  (forall e1 e2, lit_sides f = Some (e1, e2) -> esub_faithful M D esub e1 e2) ->
  rel_eval A esub f b = Some (t, i) ->
  i_ok i /\ forall rho, in_box rho b -> defF M D f rho ->
    (t = VALID -> holds M f rho) /\
    (t = UNSAT -> ~ holds M f rho) /\
    (t = UNKNOWN -> forall delta, is_finite delta = true -> dgt (i_diam i) delta = false -> weak M (B2R delta) true f rho).
Proof. exact rel_eval_sound. Qed.
Print Assumptions C07_three_valued_evaluation_sound.
Example C07_example : verdict lit_valid exb = Some VALID /\ verdict lit_unsat exb = Some UNSAT /\ verdict lit_unknown exb = Some UNKNOWN.
Proof. exact verdicts. Qed.
Example C07_hypotheses_met : ia_ok Mstd stdD lin /\ rc_ok Mstd /\ box_ok exb /\ forall f, In f [lit_valid; lit_unsat; lit_unknown] ->
  (forall v, In v (fvF f) -> In v (bvars exb)) /\
  (forall e1 e2, lit_sides f = Some (e1, e2) -> esub_faithful Mstd stdD plain_sub e1 e2) /\
  (forall rho, defF Mstd stdD f rho).
Proof. exact (conj lin_ok (conj Mstd_rc (conj exb_ok lit_hyp))). Qed.

(** ** C08: any contractor, any number of rounds, any termination condition *)
Theorem C08_pruning_keeps_solutions : forall M D Orc term n c s s',
  box_ok (cs_box s) -> c_ok M D Orc (bvars (cs_box s)) c -> prune Orc term n c s = Some s' ->
  bvars (cs_box s') = bvars (cs_box s) /\ box_ok (cs_box s') /\
  (forall i x, imem x (b_get (cs_box s') i) -> imem x (b_get (cs_box s) i)) /\
  (forall rho, well_typed rho -> in_box rho (cs_box s) -> c_sem M D c rho -> in_box rho (cs_box s')).
Proof. exact prune_top. Qed.
Print Assumptions C08_pruning_keeps_solutions.
Example C08_example : forall t, generate plain_sub plain_neg (bvars exb) false const_fold 10 f_tree = Some t ->
  box_ok exb /\ c_ok Mstd stdD lib_orc (bvars exb) (mk_fix [t; mk_integer exb]).
Proof. exact (fun t E => conj exb_ok (fix_ok_of t E)). Qed.

(** ** C40: the constraint has the literal's solutions, over the literal's variables *)
Theorem C40_translation_faithful : forall M D esub eneg vars n f c, eneg_faithful M D eneg -> sqrt_ok M D ->
  (forall a b, lit_sides f = Some (a, b) -> esub_faithful M D esub a b) ->
  ibex_convert esub eneg vars n f = COk (Some c) ->
  (forall rho p, (forall i v, nth_error vars i = Some v -> p i = rho v) -> defF M D f rho -> (ctr_sol M D c p <-> holds M f rho)) /\
  (forall i, In i (syms (fst c)) -> exists v, In v (fvF f) /\ nth_error vars i = Some v).
Proof. exact convert_top. Qed.
Print Assumptions C40_translation_faithful.
(** No constraint is produced exactly for [true] under any number of negations and for disequalities. *)
Theorem C40_no_constraint_cases : forall esub eneg vars n f,
  ibex_convert esub eneg vars n f = COk None <-> strip f = FTrue \/ is_neq_pol f true = true.
Proof. exact (fun esub eneg vars n f => conv_f_none esub eneg vars n f true). Qed.
Print Assumptions C40_no_constraint_cases.
Example C40_example : eneg_faithful Mstd stdD plain_neg /\ sqrt_ok Mstd stdD /\ forallb conv_ok [f_le3; f_ge25; lit_valid; lit_unknown] = true.
Proof. exact (conj (plain_neg_ok _ _) (conj (std_sqrt_ok _ _) conv_lits)). Qed.
(** ... which includes the unsatisfiable literal "not true". *)
Theorem C40_negated_true_refuted : forall esub eneg vars n M rho,
  ibex_convert esub eneg vars n (FNot FTrue) = COk None /\ ~ holds M (FNot FTrue) rho.
Proof. exact (fun _ _ _ _ _ _ => conj eq_refl (fun H => H I)). Qed.
Print Assumptions C40_negated_true_refuted.

(** ** C42: the contractor generated for a formula, over any library meeting [ibex_ok] *)
Theorem C42_generated_contractor_sound : forall M D L esub eneg n fa term use_polytope fold f c m s s',
  ibex_ok M D L -> eneg_faithful M D eneg -> sqrt_ok M D ->
  unfolded fold f -> rels_ok (fun _ a b => esub_faithful M D esub a b) f ->
  box_ok (cs_box s) -> (forall v, In v (fvF f) -> In v (bvars (cs_box s))) ->
  generate esub eneg (bvars (cs_box s)) use_polytope fold n f = Some c ->
  prune (ibex_oracles L esub eneg n fa) term m c s = Some s' ->
  bvars (cs_box s') = bvars (cs_box s) /\ box_ok (cs_box s') /\
  (forall i x, imem x (b_get (cs_box s') i) -> imem x (b_get (cs_box s) i)) /\
  (forall rho, well_typed rho -> in_box rho (cs_box s) -> solves M D f rho -> in_box rho (cs_box s')).
Proof. exact generate_top. Qed.
Print Assumptions C42_generated_contractor_sound.
Example C42_hypotheses_met : ibex_ok Mstd stdD lib /\ unfolded const_fold f_tree /\
  rels_ok (fun _ a b => esub_faithful Mstd stdD plain_sub a b) f_tree /\ (forall v, In v (fvF f_tree) -> In v [vx; vi]).
Proof. exact (conj lib_ok tree_hyps). Qed.
Example C42_example :
  comps_are (bind (tree_c false) (fun c => prune lib_orc default_term 20 c (cs_new exb None))) (IV dzero (dZ 3)) (IV d25 (dZ 8)) = true /\
  comps_are (bind (tree_c true) (fun c => prune lib_orc default_term 20 c (cs_new exb None))) (IV dzero (dZ 3)) (IV d25 (dZ 8)) = true /\
  comps_are (bind ex_fix (fun c => prune lib_orc default_term 20 c (cs_new exb None))) (IV dzero (dZ 3)) (IV (dZ 3) (dZ 8)) = true.
Proof. exact tree_prunes. Qed.
