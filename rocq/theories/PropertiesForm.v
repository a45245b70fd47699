(** * Properties of formula construction and of the clausal conversions (C12-C15, C18) *)
From Coq Require Import ZArith Reals List Bool.
From Flocq Require Import IEEE754.BinarySingleNaN.
From Verif Require Import Dbl Syntax Sem FormulaCons FormulaConsProofs SpecForm Nnf NnfProofs
  PredAbs PredAbsProofs Tseitin TseitinProofs TseitinShape ExamplesForm ConsUnfolded.
Import ListNotations.

(** ** C12: negation normal form *)
Theorem C12_nnf_preserves_meaning : forall M fold f, unfolded fold f ->
  forall push rho, holds M (nnf_convert fold f push) rho <-> holds M f rho.
Proof. exact (fun M fold f U push rho => nnf_holds M fold push f U true rho). Qed.
Print Assumptions C12_nnf_preserves_meaning.
Theorem C12_nnf_negations_on_atoms : forall fold f push, unfolded fold f -> is_nnf push (nnf_convert fold f push).
Proof. exact (fun fold f push U => nnf_shape fold push f U true). Qed.
Print Assumptions C12_nnf_negations_on_atoms.
Example C12_example : unfolded const_fold ex1 /\
  nnf_convert const_fold ex1 true =
    FOr [FVar vb; FRel RLeq ex_x zero; FAnd [FRel RGt ex_y ex_x; FVar vc]].
Proof. exact (conj ex1_unfolded eq_refl). Qed.

(** ** C13: naive CNF *)
Theorem C13_naive_cnf_preserves_meaning : forall M fold f, unfolded fold f ->
  forall rho, holds M (naive_cnf fold f) rho <-> holds M f rho.
Proof. exact naive_cnf_holds. Qed.
Print Assumptions C13_naive_cnf_preserves_meaning.
Theorem C13_naive_cnf_is_cnf : forall fold f, unfolded fold f ->
  cnf (naive_cnf fold f) /\ deep_cnf (naive_cnf fold f).
Proof. exact (fun fold f U => conj (naive_cnf_cnf fold f U) (naive_cnf_deep fold f U)). Qed.
Print Assumptions C13_naive_cnf_is_cnf.
Example C13_example : unfolded const_fold ex1 /\
  naive_cnf const_fold ex1 =
    FAnd [FOr [FVar vb; FRel RLeq ex_x zero; FRel RGt ex_y ex_x]; FOr [FVar vb; FRel RLeq ex_x zero; FVar vc]].
Proof. exact (conj ex1_unfolded eq_refl). Qed.

(** ** C14: Tseitin CNF.  [next] is the identifier the next new variable will get. *)
Theorem C14_tseitin_sound : forall M fold f next cs s, unfolded fold f ->
  (forall v, In v (fvF f) -> vid v < next) ->
  ts_convert fold f next = (Some cs, s) ->
  forall rho, (forall c, In c cs -> holds M c rho) -> holds M f rho.
Proof. exact ts_convert_sound. Qed.
Print Assumptions C14_tseitin_sound.
Theorem C14_tseitin_complete : forall M fold f next cs s, unfolded fold f ->
  (forall v, In v (fvF f) -> vid v < next) ->
  ts_convert fold f next = (Some cs, s) ->
  forall rho, holds M f rho -> exists rho',
      (forall v, vid v < next -> rho' v = rho v) /\
      (forall v, ~ In v (map fst (ts_map s)) -> rho' v = rho v) /\
      (forall v, In v (map fst (ts_map s)) -> typed_val (vty v) (rho' v)) /\
      (forall c, In c cs -> holds M c rho').
Proof. exact ts_convert_complete. Qed.
Print Assumptions C14_tseitin_complete.
Theorem C14_tseitin_fresh : forall (M : interp) fold f next cs s, unfolded fold f ->
  (forall v, In v (fvF f) -> vid v < next) ->
  ts_convert fold f next = (cs, s) ->
  NoDup (map fst (ts_map s)) /\ next <= ts_next s /\
  (forall v, In v (map fst (ts_map s)) -> vty v = BOOLEAN /\ next <= vid v < ts_next s).
Proof. exact ts_convert_fresh. Qed.
Print Assumptions C14_tseitin_fresh.
(** For quantifier-free formulas the conversion never throws and yields clauses. *)
Theorem C14_tseitin_total_clausal : forall fold f next, api_form f ->
  (forall v, In v (fvF f) -> vid v < next) ->
  exists cs s, ts_convert fold f next = (Some cs, s) /\ forall c, In c cs -> clause c.
Proof. exact ts_convert_shape. Qed.
Print Assumptions C14_tseitin_total_clausal.
Example C14_example : unfolded const_fold ex1 /\ api_form ex1 /\ (forall v, In v (fvF ex1) -> vid v < 100) /\
  length (ts_map (snd (ts_convert const_fold ex1 100))) = 4.
Proof. exact (conj ex1_unfolded (conj ex1_api (conj ex1_ids (proj1 ex1_tseitin)))). Qed.
(** With quantifiers below a connective both guarantees fail. *)
Theorem C14_tseitin_clausal_with_forall_refuted :
  exists f cs s c, unfolded no_fold f /\ ts_convert no_fold f 100 = (Some cs, s) /\ In c cs /\ ~ clause c.
Proof. exact (match ex2_bad_clause with ex_intro _ cs (ex_intro _ s (ex_intro _ c H)) =>
  ex_intro _ ex2 (ex_intro _ cs (ex_intro _ s (ex_intro _ c (conj (no_fold_unfolded ex2) H)))) end). Qed.
Print Assumptions C14_tseitin_clausal_with_forall_refuted.
Theorem C14_tseitin_total_with_forall_refuted : exists f, unfolded no_fold f /\ fst (ts_convert no_fold f 100) = None.
Proof. exact (ex_intro _ ex3 (conj (no_fold_unfolded ex3) ex3_throws)). Qed.
Print Assumptions C14_tseitin_total_with_forall_refuted.

(** ** C15: predicate abstraction, over any sequence of conversions by one abstractor *)
Theorem C15_abstraction_faithful : forall M fold fs n gs s,
  (forall f, In f fs -> unfolded fold f) ->
  pa_convert_all fold fs {| pa_next := n; pa_map := [] |} = (gs, s) ->
  Forall2 (fun f g => propositional g /\
             forall rho, (forall b a, In (b, a) (pa_map s) -> (rho b = 1%R <-> holds M a rho)) ->
                         (holds M g rho <-> holds M f rho)) fs gs
  /\ (forall b f g, In (b, f) (pa_map s) -> In (b, g) (pa_map s) -> f = g)
  /\ (forall b c f, In (b, f) (pa_map s) -> In (c, f) (pa_map s) -> b = c)
  /\ (forall b f, In (b, f) (pa_map s) -> vty b = BOOLEAN /\ n <= vid b).
Proof. exact pa_faithful. Qed.
Print Assumptions C15_abstraction_faithful.
(** After any further conversions [fs], the comparison and its complement get complementary literals. *)
Theorem C15_same_variable_for_complement : forall (M : interp) fold fs1 op a b fs2 n g s0 s1 gs1 gs2 s2,
  (forall f, In f (fs1 ++ fs2) -> unfolded fold f) -> fold a b = None ->
  pa_convert_all fold fs1 {| pa_next := n; pa_map := [] |} = (gs1, s0) ->
  pa_convert fold (FRel op a b) s0 = (g, s1) ->
  pa_convert_all fold fs2 s1 = (gs2, s2) ->
  pa_convert fold (FRel op a b) s2 = (g, s2) /\
  pa_convert fold (FRel (neg_relop op) a b) s2 = (mk_not g, s2).
Proof. exact pa_stable_seq. Qed.
Print Assumptions C15_same_variable_for_complement.
(** The assumption on the environment can always be met by choosing the abstraction variables. *)
Theorem C15_extension_exists : forall M fold fs n gs s rho,
  (forall f, In f fs -> unfolded fold f /\ forall v, In v (fvF f) -> vid v < n) ->
  pa_convert_all fold fs {| pa_next := n; pa_map := [] |} = (gs, s) ->
  exists rho', (forall v, vid v < n -> rho' v = rho v) /\
    (forall b a, In (b, a) (pa_map s) -> (rho' b = 1%R <-> holds M a rho')).
Proof. exact pa_extension. Qed.
Print Assumptions C15_extension_exists.
Example C15_example :
  fst (pa_convert_all const_fold [ex1; mk_not (FRel RGt ex_x zero)] {| pa_next := 100; pa_map := [] |}) =
  [FOr [FVar vb; FNot (FAnd [FNot (FVar (mkVar 100 BOOLEAN));
                             FOr [FVar (mkVar 101 BOOLEAN); FNot (FVar vc)]])];
   FVar (mkVar 100 BOOLEAN)].
Proof. exact eq_refl. Qed.

(** ** C18: formula constructors *)
Theorem C18_constructors_preserve_meaning : forall M rho f g fs,
  (holds M (mk_and f g) rho <-> holds M f rho /\ holds M g rho) /\
  (holds M (mk_or f g) rho <-> holds M f rho \/ holds M g rho) /\
  (holds M (mk_conj fs) rho <-> forall h, In h fs -> holds M h rho) /\
  (holds M (mk_disj fs) rho <-> exists h, In h fs /\ holds M h rho) /\
  (holds M (mk_not f) rho <-> ~ holds M f rho) /\
  (holds M (mk_imply f g) rho <-> (holds M f rho -> holds M g rho)) /\
  (holds M (mk_iff f g) rho <-> (holds M f rho <-> holds M g rho)) /\
  (holds M (mk_feq f g) rho <-> (holds M f rho <-> holds M g rho)) /\
  (holds M (mk_fneq f g) rho <-> ~ (holds M f rho <-> holds M g rho)).
Proof. exact cons_all. Qed.
Print Assumptions C18_constructors_preserve_meaning.
Theorem C18_forall_constructor : forall M vs f rho,
  holds M (mk_forall vs f) rho <->
  (forall rho', (forall v, ~ In v vs -> rho' v = rho v) ->
                (forall v, In v vs -> typed_val (vty v) (rho' v)) -> holds M f rho').
Proof. exact mk_forall_holds. Qed.
Print Assumptions C18_forall_constructor.
(** Comparisons: correct whenever the simplifier's constant difference is the exact real difference. *)
Theorem C18_comparison_constructor : forall M fold, 
  (forall e1 e2 c, fold e1 e2 = Some c -> is_finite c = true /\
      forall rho, (evalE M e1 rho - evalE M e2 rho)%R = B2R c) ->
  forall op e1 e2 rho, holds M (mk_rel fold op e1 e2) rho <-> relR op (evalE M e1 rho) (evalE M e2 rho).
Proof. exact (fun M fold FS op e1 e2 rho => mk_rel_holds M fold op e1 e2 rho FS). Qed.
Print Assumptions C18_comparison_constructor.
(** Everything built by the constructors is [unfolded], the hypothesis of C12-C15. *)
Theorem C18_constructors_unfolded : forall fold op e1 e2 f g fs vs,
  unfolded fold (mk_rel fold op e1 e2) /\
  (unfolded fold f -> unfolded fold g -> unfolded fold (mk_and f g) /\ unfolded fold (mk_or f g)) /\
  (unfolded fold f -> unfolded fold (mk_not f) /\ unfolded fold (mk_forall vs f)) /\
  ((forall h, In h fs -> unfolded fold h) -> unfolded fold (mk_conj fs) /\ unfolded fold (mk_disj fs)).
Proof. exact cons_unfolded. Qed.
Print Assumptions C18_constructors_unfolded.
