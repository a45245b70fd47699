(** * Properties of boxes and numeric conversions (C06, C11, C39) *)
From Coq Require Import ZArith Reals List Bool.
From Flocq Require Import IEEE754.BinarySingleNaN.
From Verif Require Import Dbl Syntax Sem Interval IntervalProofs BoxHeap BoxHeapProofs MathConv MathConvProofs ExamplesBox.
Import ListNotations.

(** ** C06: bisection.  [mid] is the interval library's midpoint, any function satisfying [mid_ok]. *)
Theorem C06_bisect_covers_partial : forall mid, mid_ok mid -> forall b i b1 b2,
  box_ok b -> b_bisect mid b i = Some (b1, b2) ->
  exists v, nth_error (bvars b) i = Some v /\
    (forall rho, in_box rho b1 \/ in_box rho b2 -> in_box rho b) /\
    (vty v = CONTINUOUS \/ (forall l u, b_get b i = IV l u -> (Rabs (B2R (mid l u)) <= 9007199254740991)%R) ->
     forall rho, typed_val (vty v) (rho v) -> in_box rho b -> in_box rho b1 \/ in_box rho b2) /\
    ((forall x, imem x (b_get b1 i) -> imem x (b_get b i)) /\ exists x, imem x (b_get b i) /\ ~ imem x (b_get b1 i)) /\
    ((forall x, imem x (b_get b2 i) -> imem x (b_get b i)) /\ exists x, imem x (b_get b i) /\ ~ imem x (b_get b2 i)) /\
    (forall j, j <> i -> b_get b1 j = b_get b j /\ b_get b2 j = b_get b j) /\
    bvars b1 = bvars b /\ bvars b2 = bvars b /\ box_ok b1 /\ box_ok b2.
Proof. exact bisect_spec. Qed.
Print Assumptions C06_bisect_covers_partial.
Example C06_example : mid_ok ibex_mid /\ box_ok exb /\ match b_bisect ibex_mid exb 1 with
  | Some (b1, b2) => i_eqb (b_get b1 1) (IV (dZ (-3)) (dZ 2)) && i_eqb (b_get b2 1) (IV (dZ 3) (dZ 8))
  | None => false end = true.
Proof. exact (conj ibex_mid_ok (conj exb_ok exb_bisect1)). Qed.
(** Without the range condition an integer point is lost. *)
Theorem C06_bisect_covers_integers_refuted : exists mid b b1 b2 rho v,
  mid_ok mid /\ box_ok b /\ b_bisect mid b 0 = Some (b1, b2) /\ nth_error (bvars b) 0 = Some v /\
  typed_val (vty v) (rho v) /\ in_box rho b /\ ~ in_box rho b1 /\ ~ in_box rho b2.
Proof. exact (match exbig_loses with ex_intro _ b1 (ex_intro _ b2 (ex_intro _ rho (conj A (conj B C)))) =>
   ex_intro _ ibex_mid (ex_intro _ exbig (ex_intro _ b1 (ex_intro _ b2 (ex_intro _ rho (ex_intro _ ExamplesForm.vi
     (conj ibex_mid_ok (conj exbig_ok (conj A (conj eq_refl (conj B C)))))))))) end). Qed.
Print Assumptions C06_bisect_covers_integers_refuted.

(** ** C11: for every sequence of operations the sharing implementation reports what independent
    values would report. *)
Theorem C11_boxes_are_values : forall ops k, ops_pre [] ops ->
  obs_vars (h_run ops) k = option_map bvars (vget (v_run ops) k) /\
  obs_vals (h_run ops) k = option_map bvals (vget (v_run ops) k) /\
  (forall v, obs_index (h_run ops) k v = option_map (fun b => b_index b v) (vget (v_run ops) k)) /\
  (forall v, obs_has (h_run ops) k v = option_map (fun b => b_has b v) (vget (v_run ops) k)) /\
  (forall i, obs_variable (h_run ops) k i = option_map (fun b => nth_error (bvars b) i) (vget (v_run ops) k)).
Proof. exact box_heap_refines. Qed.
Print Assumptions C11_boxes_are_values.
(** Operations on other boxes change nothing a box reports. *)
Theorem C11_boxes_independent : forall ops ops' k, ops_pre [] (ops ++ ops') ->
  (forall op, In op ops' -> touches op <> Some k) -> k < length (v_run ops) ->
  obs_vars (h_run (ops ++ ops')) k = obs_vars (h_run ops) k /\
  obs_vals (h_run (ops ++ ops')) k = obs_vals (h_run ops) k /\
  (forall v, obs_index (h_run (ops ++ ops')) k v = obs_index (h_run ops) k v) /\
  (forall v, obs_has (h_run (ops ++ ops')) k v = obs_has (h_run ops) k v) /\
  (forall i, obs_variable (h_run (ops ++ ops')) k i = obs_variable (h_run ops) k i).
Proof. exact h_run_other. Qed.
Print Assumptions C11_boxes_independent.
Example C11_example : ops_pre [] ex_ops.
Proof. exact ex_ops_pre. Qed.
(** Reading a box through a variable it does not contain alters the boxes it shares tables with. *)
Theorem C11_unknown_variable_leaks_refuted : exists ops op k v,
  touches op <> Some k /\ obs_has (h_run ops) k v = Some false /\ obs_has (h_run (ops ++ [op])) k v = Some true.
Proof. exact (ex_intro _ [ONew; OAdd 0 ExamplesForm.vx; OCopy 0] (ex_intro _ (OGetVar 1 ExamplesForm.vy)
   (ex_intro _ 0 (ex_intro _ ExamplesForm.vy (conj (fun H : Some 1 = Some 0 => match H in _ = y return
      (match y with Some 1 => True | _ => False end) with eq_refl => I end) ex_leak_seen))))). Qed.
Print Assumptions C11_unknown_variable_leaks_refuted.

(** ** C39: numeric conversions *)
Theorem C39_is_integer : forall v,
  is_integer v = true <-> is_finite v = true /\ exists z, (-2147483648 <= z <= 2147483647)%Z /\ B2R v = IZR z.
Proof. exact is_integer_spec. Qed.
Print Assumptions C39_is_integer.
Theorem C39_int64_to_int : forall v,
  (forall r, convert_int64_to_int v = Some r -> r = v /\ (-2147483648 <= r <= 2147483647)%Z) /\
  (convert_int64_to_int v = None <-> ~ (-2147483648 <= v <= 2147483647)%Z).
Proof. exact to_int_spec. Qed.
Print Assumptions C39_int64_to_int.
Theorem C39_int64_to_double : forall v,
  (forall d, convert_int64_to_double v = Some d -> is_finite d = true /\ B2R d = IZR v) /\
  (convert_int64_to_double v = None <-> (Z.abs v > 2 ^ 53)%Z).
Proof. exact to_double_spec. Qed.
Print Assumptions C39_int64_to_double.
Example C39_example : is_integer (dZ 5) = true /\ is_integer (mkd 5 (-1)) = false /\ is_integer (dZ 2147483648) = false
  /\ convert_int64_to_double 9007199254740993 = None.
Proof. exact (conj eq_refl (conj eq_refl (conj eq_refl eq_refl))). Qed.
