(** C55: branch-and-prune splits exactly where a constraint is still undecided, along the widest such dimension. *)
From Coq Require Import ZArith Reals List Bool.
From Flocq Require Import Core.Core IEEE754.BinarySingleNaN.
From Verif Require Import Scoped Context ExprAlg Forall Dbl Syntax Sem Interval MathConv IEval Contr Icp ExamplesForm ExamplesBox ExamplesContr ExamplesIcp SpecBranch BranchProofs ExamplesBranch.
Import ListNotations.

(** One round of the search, when pruning leaves a non-empty box that no constraint rules out.  It accepts the box exactly when no dimension
    can be split that a still undecided constraint mentions; otherwise it splits the first widest one of those dimensions. *)
Theorem C55_split_choice (pr : cstat -> option cstat) (ev : formula -> box -> option (etype * ival)) (mid : dbl -> dbl -> dbl) (precision : dbl)
    (fs : list formula) (s s1 : cstat) :
  pr s = Some s1 -> box_ok (cs_box s1) -> b_empty (cs_box s1) = false -> undecided ev fs (cs_box s1) ->
  (forall v, In v (bvars (cs_box s1)) -> vty v <> BOOLEAN) ->
  let splittable d := candidate ev precision fs (cs_box s1) d /\ i_bisectable mid (b_get (cs_box s1) d) = true in
  (icp_step pr ev (branch_largest mid) precision fs s = Some (Accept s1) /\ forall d, ~ splittable d) \/
  (exists d l r, widest splittable (cs_box s1) d /\ b_bisect mid (cs_box s1) d = Some (l, r) /\
     icp_step pr ev (branch_largest mid) precision fs s = Some (Split d l r s1)).
Proof. exact (step_numeric pr ev mid precision fs s s1). Qed.
Print Assumptions C55_split_choice.

(** If some constraint is false on the pruned box, the box is given up and such a constraint is recorded as used in the explanation. *)
Theorem C55_ruled_out (pr : cstat -> option cstat) (ev : formula -> box -> option (etype * ival)) (mid : dbl -> dbl -> dbl) (precision : dbl)
    (fs : list formula) (s s1 : cstat) :
  pr s = Some s1 -> b_empty (cs_box s1) = false -> (forall f, In f fs -> ev f (cs_box s1) <> None) ->
  (exists f i, In f fs /\ ev f (cs_box s1) = Some (UNSAT, i)) ->
  exists s2, icp_step pr ev (branch_largest mid) precision fs s = Some (Infeasible s2) /\
    exists f, In f fs /\ In f (cs_used s2) /\ exists i, ev f (cs_box s1) = Some (UNSAT, i).
Proof. exact (step_unsat pr ev mid precision fs s s1). Qed.
Print Assumptions C55_ruled_out.

(** Box::MaxDiam reports the width of the first widest dimension that can be split, and that dimension. *)
Theorem C55_max_diam : forall mid b, box_ok b ->
  match b_maxdiam mid b with
  | (w, Some d) => w = i_diam (b_get b d) /\ widest (fun e => e < b_size b /\ i_bisectable mid (b_get b e) = true) b d
  | (w, None) => w = dzero /\ forall e, e < b_size b -> i_bisectable mid (b_get b e) = false
  end.
Proof. exact maxdiam_spec. Qed.
Print Assumptions C55_max_diam.

(** A universally quantified constraint that has a counterexample box reports, as its width, the largest one of its disjuncts' sizes there. *)
Theorem C55_quantified_width : forall fold K pico T mid precision ev f fuel b c c' t i,
  fe_eval fold K pico T mid precision ev f fuel b c = Some (c', (t, i)) ->
  (t = VALID /\ i = mk_ival dzero dzero) \/
  (t = UNKNOWN /\ exists m d, cx_run fold K pico T mid precision (inner_query b fuel) c = Some (c', [Some m]) /\ i = mk_ival dzero d /\
     (forall g, In g (fe_disjuncts f) -> exists x, dis_size ev g (overwrite b m) = Some x /\ dgt x d = false) /\
     (d = dzero \/ exists g, In g (fe_disjuncts f) /\ dis_size ev g (overwrite b m) = Some d)).
Proof. exact fe_eval_width. Qed.
Print Assumptions C55_quantified_width.

(** The search over x in [0,4], n in [-3,8] with x + n >= 8 and x + n <= 7 meets the hypotheses: at precision 1/2 the wider, integer dimension is
    split, at precision 100 the box is accepted, and a constraint false everywhere gives the box up. *)
Example C55_example : box_ok exb /\ b_empty exb = false /\ undecided icp_ev fs_unsat exb /\ (forall v, In v (bvars exb) -> vty v <> BOOLEAN) /\
  splits_at (one_step half fs_unsat) 1 = true /\ accepts (one_step (dZ 100) fs_unsat) = true /\ infeasible (one_step half [f_le3; f_far]) = true.
Proof. exact (conj exb_ok (conj (proj2 (proj2 (proj2 steps))) (conj fs_undecided (conj exb_numeric (conj (proj1 steps) (conj (proj1 (proj2 steps)) step_far)))))). Qed.

(** C39: BloatPoint turns a value into an interval between the two neighbouring doubles:
    the value is strictly inside and no other double is. *)
Theorem C39_bloat_point : forall c, is_finite c = true ->
  exists l u, bloat_point c = IV l u /\ i_ok (IV l u) /\ ext_lt (d2e l) (d2e c) /\ ext_lt (d2e c) (d2e u) /\
    forall d, is_finite d = true -> imem (B2R d) (IV l u) -> d2e d = d2e l \/ B2R d = B2R c \/ d2e d = d2e u.
Proof. exact bloat_spec. Qed.
Print Assumptions C39_bloat_point.

(** C19: a power of two constants throws exactly for a negative base and an exponent that is not an integer of the range of int. *)
Theorem C19_constant_power_throws : forall fpow v1 v2, mk_pow fpow (EConst v1) (EConst v2) = (Throw, []) <->
  is_finite v1 = true /\ (B2R v1 < 0)%R /\ is_finite v2 = true /\ ~ exists z : Z, (-2147483648 <= z <= 2147483647)%Z /\ B2R v2 = IZR z.
Proof. exact pow_throws. Qed.
Print Assumptions C19_constant_power_throws.
(** So pow(-2, 2^31), whose value exists, throws. *)
Theorem C19_large_integer_power_refuted : forall fpow, mk_pow fpow (EConst (dZ (-2))) (EConst (dZ 2147483648)) = (Throw, []).
Proof. exact pow_big. Qed.
Print Assumptions C19_large_integer_power_refuted.

(** C25: what the comparison of two scoped vectors says. *)
Theorem C25_vector_less : forall (T : Type) (ltb : T -> T -> bool) a b, sv_less ltb a b = Some true <->
  exists k x y, nth_error a k = Some x /\ nth_error b k = Some y /\ ltb x y = true.
Proof. exact sv_less_true. Qed.
Print Assumptions C25_vector_less.
Theorem C25_vector_not_less : forall (T : Type) (ltb : T -> T -> bool) a b, sv_less ltb a b = Some false <->
  length a <= length b /\ forall k x y, nth_error a k = Some x -> nth_error b k = Some y -> ltb x y = false.
Proof. exact sv_less_false. Qed.
Print Assumptions C25_vector_not_less.
