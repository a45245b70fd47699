(** * Properties of expression building, substitution, strengthening and free variables (C19, C20, C21, C23)

    [exact M s] (SpecAlg.v) says that an assumption recorded in the run holds: the double computed is the
    real one, two map keys found equal have equal values, a decimal literal has the value of its
    representative, a merged exponent is an integer.  [fpow] is std::pow, [n] bounds the recursion. *)
From Coq Require Import ZArith Reals List Bool.
From Flocq Require Import IEEE754.BinarySingleNaN.
From Verif Require Import Dbl Syntax Sem SemProofs FormulaCons IEval StdInterp MathConv Order ExprAlg SpecAlg ExprAlgProofs Subst DeltaStr AlgTop ExamplesForm ExamplesAlg.
Import ListNotations.
Local Open Scope R_scope.

(** ** C19: building expressions *)
Theorem C19_sum_partial : forall uf rc fpow n a b rho,
  defE (std uf rc) stdD a rho -> defE (std uf rc) stdD b rho -> forall r t, mk_add fpow n a b = (Val r, t) -> Forall (exact (std uf rc)) t ->
  defE (std uf rc) stdD r rho /\ evalE (std uf rc) r rho = evalE (std uf rc) a rho + evalE (std uf rc) b rho.
Proof. exact (fun uf rc fpow n a b rho Ha Hb => mk_add_ev uf rc fpow n a b rho Ha Hb). Qed.
Print Assumptions C19_sum_partial.
Theorem C19_difference_partial : forall uf rc fpow n a b rho,
  defE (std uf rc) stdD a rho -> defE (std uf rc) stdD b rho -> forall r t, mk_sub fpow n a b = (Val r, t) -> Forall (exact (std uf rc)) t ->
  defE (std uf rc) stdD r rho /\ evalE (std uf rc) r rho = evalE (std uf rc) a rho - evalE (std uf rc) b rho.
Proof. exact (fun uf rc fpow n a b rho Ha Hb => mk_sub_ev uf rc fpow n a b rho Ha Hb). Qed.
Print Assumptions C19_difference_partial.
Theorem C19_negation_partial : forall uf rc fpow n a b rho,
  defE (std uf rc) stdD a rho -> defE (std uf rc) stdD b rho -> forall r t, mk_neg fpow n a = (Val r, t) -> Forall (exact (std uf rc)) t ->
  defE (std uf rc) stdD r rho /\ evalE (std uf rc) r rho = - evalE (std uf rc) a rho.
Proof. exact (fun uf rc fpow n a b rho Ha Hb => mk_neg_ev uf rc fpow n a rho Ha). Qed.
Print Assumptions C19_negation_partial.
Theorem C19_product_partial : forall uf rc fpow n a b rho,
  defE (std uf rc) stdD a rho -> defE (std uf rc) stdD b rho -> forall r t, mk_mul fpow n a b = (Val r, t) -> Forall (exact (std uf rc)) t ->
  defE (std uf rc) stdD r rho /\ evalE (std uf rc) r rho = evalE (std uf rc) a rho * evalE (std uf rc) b rho.
Proof. exact (fun uf rc fpow n a b rho Ha Hb => mk_mul_ev uf rc fpow n a b rho Ha Hb). Qed.
Print Assumptions C19_product_partial.
Theorem C19_quotient_power_partial : forall uf rc fpow o a b rho,
  defE (std uf rc) stdD a rho -> defE (std uf rc) stdD b rho -> bin_def o (evalE (std uf rc) a rho) (evalE (std uf rc) b rho) ->
  forall r t, mk_bin fpow o a b = (Val r, t) -> Forall (exact (std uf rc)) t ->
  defE (std uf rc) stdD r rho /\ evalE (std uf rc) r rho = binR o (evalE (std uf rc) a rho) (evalE (std uf rc) b rho).
Proof. exact (fun uf rc fpow o a b rho Ha Hb U => mk_bin_ev uf rc fpow o a b rho Ha Hb U). Qed.
Print Assumptions C19_quotient_power_partial.
Theorem C19_functions_partial : forall uf rc o a rho,
  defE (std uf rc) stdD a rho -> un_def o (evalE (std uf rc) a rho) ->
  forall r t, mk_un o a = (Val r, t) -> Forall (exact (std uf rc)) t ->
  defE (std uf rc) stdD r rho /\ evalE (std uf rc) r rho = unR o (evalE (std uf rc) a rho).
Proof. exact (fun uf rc o a rho Ha U => mk_un_ev uf rc o a rho Ha U). Qed.
Print Assumptions C19_functions_partial.
Theorem C19_if_then_else : forall uf rc f a b rho,
  defF (std uf rc) stdD f rho -> defE (std uf rc) stdD a rho -> defE (std uf rc) stdD b rho ->
  defE (std uf rc) stdD (mk_ite f a b) rho /\
  (holds (std uf rc) f rho -> evalE (std uf rc) (mk_ite f a b) rho = evalE (std uf rc) a rho) /\
  (~ holds (std uf rc) f rho -> evalE (std uf rc) (mk_ite f a b) rho = evalE (std uf rc) b rho).
Proof. exact (fun uf rc f a b rho Hf Ha Hb => mk_ite_ev uf rc f a b rho Hf Ha Hb). Qed.
Print Assumptions C19_if_then_else.
Theorem C19_comparison_partial : forall uf rc fpow n op a b rho r t,
  mk_relm fpow n op a b = (Val r, t) -> Forall (exact (std uf rc)) t ->
  defE (std uf rc) stdD a rho -> defE (std uf rc) stdD b rho ->
  defF (std uf rc) stdD r rho /\ (holds (std uf rc) r rho <-> relR op (evalE (std uf rc) a rho) (evalE (std uf rc) b rho)).
Proof. exact (fun uf rc fpow n op a b rho r t => mk_relm_ev uf rc fpow n op a b rho r t). Qed.
Print Assumptions C19_comparison_partial.

(** Without decimal literals the map lookups need no assumption ([exactN] is [exact] but for lookups), and
    the result has no decimal literal either. *)
Theorem C19_plain_sum_partial : forall uf rc fpow n ty a b rho, plainE ty a -> plainE ty b ->
  defE (std uf rc) stdD a rho -> defE (std uf rc) stdD b rho -> forall r t, mk_add fpow n a b = (Val r, t) -> Forall (exactN (std uf rc)) t ->
  plainE ty r /\ defE (std uf rc) stdD r rho /\ evalE (std uf rc) r rho = evalE (std uf rc) a rho + evalE (std uf rc) b rho.
Proof. exact (fun uf rc fpow n ty a b rho Pa Pb Da Db => lit_add uf rc fpow n ty a b rho Pa Pb Da Db). Qed.
Print Assumptions C19_plain_sum_partial.
Theorem C19_plain_difference_partial : forall uf rc fpow n ty a b rho, plainE ty a -> plainE ty b ->
  defE (std uf rc) stdD a rho -> defE (std uf rc) stdD b rho -> forall r t, mk_sub fpow n a b = (Val r, t) -> Forall (exactN (std uf rc)) t ->
  plainE ty r /\ defE (std uf rc) stdD r rho /\ evalE (std uf rc) r rho = evalE (std uf rc) a rho - evalE (std uf rc) b rho.
Proof. exact (fun uf rc fpow n ty a b rho Pa Pb Da Db => lit_sub uf rc fpow n ty a b rho Pa Pb Da Db). Qed.
Print Assumptions C19_plain_difference_partial.
Theorem C19_plain_product_partial : forall uf rc fpow n ty a b rho, plainE ty a -> plainE ty b ->
  defE (std uf rc) stdD a rho -> defE (std uf rc) stdD b rho -> forall r t, mk_mul fpow n a b = (Val r, t) -> Forall (exactN (std uf rc)) t ->
  plainE ty r /\ defE (std uf rc) stdD r rho /\ evalE (std uf rc) r rho = evalE (std uf rc) a rho * evalE (std uf rc) b rho.
Proof. exact (fun uf rc fpow n ty a b rho Pa Pb Da Db => lit_mul uf rc fpow n ty a b rho Pa Pb Da Db). Qed.
Print Assumptions C19_plain_product_partial.
Theorem C19_plain_quotient_power_partial : forall uf rc fpow ty o a b rho, plainE ty a -> plainE ty b ->
  defE (std uf rc) stdD a rho -> defE (std uf rc) stdD b rho ->
  forall r t, bin_def o (evalE (std uf rc) a rho) (evalE (std uf rc) b rho) -> mk_bin fpow o a b = (Val r, t) -> Forall (exactN (std uf rc)) t ->
  plainE ty r /\ defE (std uf rc) stdD r rho /\ evalE (std uf rc) r rho = binR o (evalE (std uf rc) a rho) (evalE (std uf rc) b rho).
Proof. exact (fun uf rc fpow ty o a b rho Pa Pb Da Db r t => lit_bin uf rc fpow ty a b rho Pa Pb Da Db o r t). Qed.
Print Assumptions C19_plain_quotient_power_partial.
Theorem C19_plain_comparison_partial : forall uf rc fpow n ty op a b rho, plainE ty a -> plainE ty b ->
  defE (std uf rc) stdD a rho -> defE (std uf rc) stdD b rho -> forall r t, mk_relm fpow n op a b = (Val r, t) -> Forall (exactN (std uf rc)) t ->
  plainF ty r /\ defF (std uf rc) stdD r rho /\ (holds (std uf rc) r rho <-> relR op (evalE (std uf rc) a rho) (evalE (std uf rc) b rho)).
Proof. exact (fun uf rc fpow n ty op a b rho Pa Pb Da Db r t => lit_rel uf rc fpow n ty a b rho Pa Pb Da Db op r t). Qed.
Print Assumptions C19_plain_comparison_partial.
Example C19_example : forall fpow,
  gives (mk_add fpow 5 sum1 sum2) (EAdd (dZ 4) [(ey, dZ 3)]) = true /\
  gives (mk_sub fpow 5 sum1 sum2) (EAdd (dZ 2) [(ex, dZ 2); (ey, dZ 1)]) = true /\
  gives (mk_neg fpow 5 sum1) (EAdd (dZ (-3)) [(ex, dZ (-1)); (ey, dZ (-2))]) = true /\
  gives (mk_mul fpow 5 prod1 prod2) (EMul (dZ 6) [(ex, kk 2); (ey, kk 3)]) = true /\
  gives (mk_bin fpow BPow (EBin BPow ex (kk 2)) (kk 3)) (EBin BPow ex (kk 6)) = true /\
  gives (mk_un USqrt (EBin BPow ex (kk 2))) (EUn UAbs ex) = true /\
  givesF (mk_relm fpow 5 RLt sum1 (EAdd (dZ 1) [(ex, dZ 1); (ey, dZ 2)])) FFalse = true /\
  (plainE tyx sum1 /\ plainE tyx sum2 /\ plainE tyx prod1 /\ plainE tyx prod2).
Proof. exact (fun fpow => conj (sum_runs fpow) (conj (sub_runs fpow) (conj (neg_runs fpow) (conj (mul_runs fpow) (conj (pow_runs fpow) (conj sqrt_runs (conj (rel_runs fpow) plain_sums))))))). Qed.
Example C19_example_exact : forall uf rc c e, gives c e = true -> exists t, c = (Val e, t) /\ Forall (exact (std uf rc)) t /\ Forall (exactN (std uf rc)) t.
Proof. exact gives_ok. Qed.
(** Without the assumptions the claim fails: rounding of constants; *)
Theorem C19_rounding_refuted : forall fpow rho, exists r t, mk_add fpow 1 (kk two53) (kk 1) = (Val r, t) /\
  evalE Mstd r rho <> evalE Mstd (kk two53) rho + evalE Mstd (kk 1) rho.
Proof. exact round_sum. Qed.
Print Assumptions C19_rounding_refuted.
(** (x^2)^(1/2) * y built as x * y; *)
Theorem C19_nested_power_refuted : forall fpow, exists r t, mk_mul fpow 5 pp ey = (Val r, t) /\
  defE Mstd stdD pp rho_m /\ defE Mstd stdD ey rho_m /\ evalE Mstd r rho_m <> evalE Mstd pp rho_m * evalE Mstd ey rho_m.
Proof. exact pow_merge. Qed.
Print Assumptions C19_nested_power_refuted.
(** two different decimal literals merged; *)
Theorem C19_literals_refuted : forall fpow uf rho, exists r t,
  mk_add fpow 5 lit1 lit2 = (Val r, t) /\ Forall (exactN (std uf mid_rc)) t /\
  evalE (std uf mid_rc) r rho <> evalE (std uf mid_rc) lit1 rho + evalE (std uf mid_rc) lit2 rho.
Proof. exact literals_merged. Qed.
Print Assumptions C19_literals_refuted.
(** and pow(pow(x, y), 2) reads a cell as what it is not. *)
Theorem C19_power_undefined_behaviour_refuted : forall fpow, mk_bin fpow BPow (EBin BPow ex ey) (kk 2) = (Ub, []).
Proof. exact pow_confused. Qed.
Print Assumptions C19_power_undefined_behaviour_refuted.

(** ** C20: substitution.  [updated M sE sF rho]: rho with every substituted variable given the value of what
    replaces it; [sokE]/[sokF]: no variable capture, variables of the right type, no uninterpreted function
    with arguments. *)
Theorem C20_substitute_expression_partial : forall uf rc fpow n sE sF e rho r t,
  sokE sE sF [] e -> (forall v, In v (fvE e) -> idef (std uf rc) stdD sE sF rho v) ->
  defE (std uf rc) stdD e (updated (std uf rc) sE sF rho) -> SubstituteE fpow n sE sF e = (Val r, t) -> Forall (exact (std uf rc)) t ->
  defE (std uf rc) stdD r rho /\ evalE (std uf rc) r rho = evalE (std uf rc) e (updated (std uf rc) sE sF rho).
Proof. exact subst_top_E. Qed.
Print Assumptions C20_substitute_expression_partial.
Theorem C20_substitute_formula_partial : forall uf rc fpow n sE sF f rho r t,
  sokF sE sF [] f -> (forall v, In v (fvF f) -> idef (std uf rc) stdD sE sF rho v) ->
  defF (std uf rc) stdD f (updated (std uf rc) sE sF rho) -> SubstituteF fpow n sE sF f = (Val r, t) -> Forall (exact (std uf rc)) t ->
  defF (std uf rc) stdD r rho /\ (holds (std uf rc) r rho <-> holds (std uf rc) f (updated (std uf rc) sE sF rho)).
Proof. exact subst_top_F. Qed.
Print Assumptions C20_substitute_formula_partial.
Example C20_example : forall fpow,
  gives (SubstituteE fpow 8 sub_s [] sub_e) (EAdd dzero [(ey, dZ 1); (EAdd (dZ 1) [(ey, dZ 1)], dZ 2)]) = true /\
  givesF (SubstituteF fpow 8 sub_s sub_t sub_f)
   (FForall [vz] (FOr [FRel RGt (EAdd (dZ 1) [(ey, dZ 1)]) (EVar vz); FRel RLt ey (kk 7);
                       FNot (FRel RLeq (EAdd dzero [(ey, dZ 1); (EAdd (dZ 1) [(ey, dZ 1)], dZ 2)]) (kk 4))])) = true /\
  sokE sub_s [] [] sub_e /\ sokF sub_s sub_t [] sub_f /\
  (forall rho v, In v (fvF sub_f) -> idef Mstd stdD sub_s sub_t rho v) /\ (forall rho, defF Mstd stdD sub_f rho).
Proof. exact (fun fpow => conj (subst_runs fpow) (conj (substF_runs fpow) sub_ok)). Qed.
(** A bound variable captures a substituted one; *)
Theorem C20_capture_refuted : forall fpow, exists r t,
  SubstituteF fpow 5 [(vx, ey)] [] capt = (Val r, t) /\ Forall (exact Mstd) t /\
  holds Mstd r rho0 /\ ~ holds Mstd capt (updated Mstd [(vx, ey)] [] rho0).
Proof. exact capture. Qed.
Print Assumptions C20_capture_refuted.
(** an uninterpreted function loses the arguments that are not substituted. *)
Theorem C20_uninterpreted_function_refuted : forall fpow, exists r t,
  SubstituteE fpow 5 [(vx, EVar vz)] [] ufxy = (Val r, t) /\ t = [] /\
  evalE (std (fun _ l => INR (length l)) (fun _ _ => 0)) r rho0 <>
  evalE (std (fun _ l => INR (length l)) (fun _ _ => 0)) ufxy (updated (std (fun _ l => INR (length l)) (fun _ _ => 0)) [(vx, EVar vz)] [] rho0).
Proof. exact uf_dropped. Qed.
Print Assumptions C20_uninterpreted_function_refuted.

(** ** C21: strengthening and weakening.  [slack M d f rho]: f holds with room d in every comparison (for
    d < 0: with tolerance). *)
Theorem C21_strengthen_partial : forall uf rc fpow n k d f rho g t,
  is_finite d = true -> 0 <= B2R d -> hasIteF f = false -> defF (std uf rc) stdD f rho ->
  DeltaStrengthen fpow n k f d = (Val g, t) -> Forall (exact (std uf rc)) t ->
  defF (std uf rc) stdD g rho /\ (holds (std uf rc) g rho -> holds (std uf rc) f rho) /\
  (0 < B2R d -> (holds (std uf rc) g rho <-> slack (std uf rc) (B2R d) f rho)).
Proof. exact strong_top. Qed.
Print Assumptions C21_strengthen_partial.
Theorem C21_weaken_partial : forall uf rc fpow n k d f rho g t,
  is_finite d = true -> 0 <= B2R d -> hasIteF f = false -> defF (std uf rc) stdD f rho ->
  DeltaWeaken fpow n k f d = (Val g, t) -> Forall (exact (std uf rc)) t ->
  defF (std uf rc) stdD g rho /\ (holds (std uf rc) f rho -> holds (std uf rc) g rho) /\
  (0 < B2R d -> (holds (std uf rc) g rho <-> slack (std uf rc) (- B2R d) f rho)).
Proof. exact weak_top. Qed.
Print Assumptions C21_weaken_partial.
Example C21_example : forall fpow,
  (givesF (DeltaStrengthen fpow 8 8 str_f quarter)
    (FOr [FRel RGt (EAdd (dopp quarter) [(ex, dZ 1)]) ey; FRel RLt ex (EAdd (dopp quarter) [(ey, dZ 1)]);
          FNot (FRel RLeq (EAdd (dopp quarter) [(ex, dZ 1); (ey, dZ 1)]) (kk 2))]) = true /\
   givesF (DeltaWeaken fpow 8 8 (FNot (FRel REq ex ey)) quarter) (FNot (FRel REq ex ey)) = true /\
   givesF (DeltaWeaken fpow 8 8 (FRel REq ex ey) quarter)
    (FAnd [FRel RGeq (EAdd quarter [(ex, dZ 1)]) ey; FRel RLeq ex (EAdd quarter [(ey, dZ 1)])]) = true) /\
  is_finite quarter = true /\ 0 <= B2R quarter /\ hasIteF str_f = false /\ (forall rho, defF Mstd stdD str_f rho).
Proof. exact (fun fpow => conj (str_runs fpow) str_hyp). Qed.
(** The condition of an if-then-else is strengthened too, in the wrong direction. *)
Theorem C21_if_then_else_refuted : forall fpow, exists g t,
  DeltaStrengthen fpow 8 8 str_ite quarter = (Val g, t) /\ Forall (exact Mstd) t /\ holds Mstd g rho_e /\ ~ holds Mstd str_ite rho_e.
Proof. exact str_ite_wrong. Qed.
Print Assumptions C21_if_then_else_refuted.

(** ** C23: only the reported variables matter *)
Theorem C23_expression_variables : forall M e rho rho', (forall v, In v (fvE e) -> rho v = rho' v) -> evalE M e rho = evalE M e rho'.
Proof. exact evalE_agree. Qed.
Print Assumptions C23_expression_variables.
Theorem C23_formula_free_variables : forall M f rho rho', (forall v, In v (fvF f) -> rho v = rho' v) -> (holds M f rho <-> holds M f rho').
Proof. exact holds_agree. Qed.
Print Assumptions C23_formula_free_variables.
Example C23_example : fvE sub_e = [vx; vy] /\ ~ In vz (fvF sub_f) /\ In vb (fvF sub_f).
Proof. exact free_vars_example. Qed.
