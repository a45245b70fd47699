(** Reported models: a history meeting the hypotheses, and models that break the unrestricted claims. *)
From Coq Require Import ZArith Reals Lra Lia List Bool Arith.
From Flocq Require Import Core.Core IEEE754.BinarySingleNaN.
From Verif Require Import Dbl DblProofs Syntax Sem SemProofs Interval IntervalProofs MathConv MathConvProofs SpecForm FormulaCons Nnf
  IEval StdInterp Contr Icp Theory Wff Scoped PredAbs IteElim SpecIte Sat Context SpecCtx CtxTop SpecModel ExamplesForm ExamplesBox ExamplesIcp ExamplesIte ExamplesCtx.
Import ListNotations.
Lemma mkd_half : B2R (mkd 1 (-1)) = (1 / 2)%R.
Proof. unfold mkd. cbn. unfold F2R. cbn. lra. Qed.
Lemma mkd_three : B2R (mkd 3 (-1)) = (3 / 2)%R.
Proof. unfold mkd. cbn. unfold F2R. cbn. lra. Qed.
#[local] Opaque dZ mkd.

Lemma dZ_int z w : (Z.abs z <= 2 ^ 53)%Z -> (Z.abs w <= 2 ^ 53)%Z -> int_ends (IV (dZ z) (dZ w)).
Proof. intros A B. split; intros _; [exists z|exists w]; apply dZ_R; assumption. Qed.
Lemma ops1_typed : Forall op_typed ops1.
Proof. unfold ops1. repeat constructor; try exact I. all: cbn [op_typed typed_dom vi vty vx]; intros _; eexists; apply dZ_R; lia. Qed.

(** The model of the first check, as observed through its variables and comparisons of its bounds. *)
Definition model_of (r : option (ctx * list (option box))) : option box := match r with Some (_, Some m :: _) => Some m | _ => None end.
Lemma model_of_eq r m : model_of r = Some m -> exists c a, r = Some (c, Some m :: a).
Proof. destruct r as [[c [|[b|] a]]|]; cbn [model_of]; try discriminate. intros E. exists c, a. congruence. Qed.

(** x in [0,10] is a model variable; so is y, declared and popped; the assertion needs an if-then-else
    variable: two model variables, a box of two dimensions, hence all dimensions are reported. *)
Definition ite_f : formula := FRel RGeq (EIte (xc RGeq 2) ex_x (EConst (dZ 0))) (EConst (dZ 3)).
Definition ops_hidden : list cop := [ODeclareDom vx (dZ 0) (dZ 10) true; OPush; ODeclareDom vy (dZ 0) (dZ 1) true; OPop; OAssert ite_f; OCheck 20].
Example hidden_runs : option_map (fun m => map vid (bvars m)) (model_of (run_ex ex_T ops_hidden)) = Some [0; 10].
Proof. vm_compute. reflexivity. Qed.
Lemma hidden_wrong : exists c m, run_ex ex_T ops_hidden = Some (c, [Some m]) /\ exists v, In v (bvars m) /\ forall o, In o ops_hidden -> match o with ODeclare w _ | ODeclareDom w _ _ _ | ONew w => w <> v | _ => True end.
Proof.
  pose proof hidden_runs as H. destruct (model_of (run_ex ex_T ops_hidden)) as [m|] eqn:E; [|discriminate]. apply model_of_eq in E. destruct E as (c & a & E).
  assert (Ea : a = []).
  { assert (L : option_map (fun x => length (snd x)) (run_ex ex_T ops_hidden) = Some 1) by (vm_compute; reflexivity). rewrite E in L. cbn [option_map snd length] in L. destruct a; [reflexivity|discriminate]. }
  subst a. exists c, m. split; [exact E|]. cbn [option_map] in H. assert (X : In 10 (map vid (bvars m))) by (injection H as ->; right; left; reflexivity).
  apply in_map_iff in X. destruct X as (v & Ev & Hv). exists v. split; [exact Hv|]. intros o Ho.
  cbn in Ho. repeat (destruct Ho as [<-|Ho]; [try exact I; intros <-; discriminate Ev|]). destruct Ho.
Qed.

(** n integer in [1/2, 7/8], precision 1/4: reported as 0. *)
Definition ops_frac : list cop := [ODeclareDom vi (mkd 1 (-1)) (mkd 7 (-3)) true; OCheck 20].
Definition run_p (precision : dbl) ops := cx_run nofold kplain brute ex_T ibex_mid precision ops (cx_init 10).
Definition quarter : dbl := mkd 1 (-2).
Example frac_runs : option_map (fun m => (mem_var vi (bvars m), match b_getv m vi with IV l u => deq l dzero && deq u dzero | IEmpty => false end)) (model_of (run_p quarter ops_frac)) = Some (true, true).
Proof. vm_compute. reflexivity. Qed.
Lemma deq_R a z : deq a (dZ z) = true -> (Z.abs z <= 2 ^ 53)%Z -> d2e a = Fin (IZR z).
Proof. intros H B. rewrite (deq_true _ _ H). apply dZ_ext. exact B. Qed.
Lemma frac_wrong : exists c m, run_p quarter ops_frac = Some (c, [Some m]) /\ In vi (bvars m) /\ imem 0 (b_getv m vi) /\ ~ between (mkd 1 (-1)) (mkd 7 (-3)) 0.
Proof.
  pose proof frac_runs as H. destruct (model_of (run_p quarter ops_frac)) as [m|] eqn:E; [|discriminate]. apply model_of_eq in E. destruct E as (c & a & E).
  assert (Ea : a = []).
  { assert (L : option_map (fun x => length (snd x)) (run_p quarter ops_frac) = Some 1) by (vm_compute; reflexivity). rewrite E in L. cbn [option_map snd length] in L. destruct a; [reflexivity|discriminate]. }
  subst a. exists c, m. split; [exact E|]. cbn [option_map] in H. injection H as H1 H2. split; [apply mem_var_In; exact H1|]. split.
  - destruct (b_getv m vi) as [|l u]; [discriminate|]. apply andb_true_iff in H2. destruct H2 as [A B]. cbn [imem].
    change dzero with (dZ 0) in A, B. rewrite (deq_R _ _ A), (deq_R _ _ B) by lia. cbn. lra.
  - intros [A _]. assert (X : B2R (mkd 1 (-1)) = (1 / 2)%R) by exact mkd_half.
    rewrite finite_d2e in A by reflexivity. rewrite X in A. cbn in A. lra.
Qed.

(** x in [2^52, 2^52 + 16] with precision 3/2: the model is [2^52 + 7, 2^52 + 9]. *)
Definition big (k : Z) : dbl := dZ (4503599627370496 + k).
Definition three_half : dbl := mkd 3 (-1).
Definition ops_wide : list cop := [ODeclareDom vx (big 0) (big 16) true; OCheck 20].
Example wide_runs : option_map (fun m => match b_getv m vx with IV l u => deq l (big 7) && deq u (big 9) | IEmpty => false end) (model_of (run_p three_half ops_wide)) = Some true.
Proof. vm_compute. reflexivity. Qed.
Lemma wide_wrong : exists c m a b, run_p three_half ops_wide = Some (c, [Some m]) /\ imem a (b_getv m vx) /\ imem b (b_getv m vx) /\ (b - a > B2R three_half)%R.
Proof.
  pose proof wide_runs as H. destruct (model_of (run_p three_half ops_wide)) as [m|] eqn:E; [|discriminate]. apply model_of_eq in E. destruct E as (c & a & E).
  assert (Ea : a = []).
  { assert (L : option_map (fun x => length (snd x)) (run_p three_half ops_wide) = Some 1) by (vm_compute; reflexivity). rewrite E in L. cbn [option_map snd length] in L. destruct a; [reflexivity|discriminate]. }
  subst a. exists c, m, (IZR (4503599627370496 + 7)), (IZR (4503599627370496 + 9)). split; [exact E|]. cbn [option_map] in H. destruct (b_getv m vx) as [|l u]; [discriminate|].
  assert (H' : (deq l (big 7) && deq u (big 9))%bool = true) by congruence. apply andb_true_iff in H'. destruct H' as [A B]. unfold big in A, B.
  cbn [imem]. rewrite (deq_R _ _ A), (deq_R _ _ B) by lia. cbn [ext_le]. split; [split; apply IZR_le; lia|]. split; [split; apply IZR_le; lia|].
  assert (X : B2R three_half = (3 / 2)%R) by exact mkd_three. rewrite X, <- minus_IZR. change (4503599627370496 + 9 - (4503599627370496 + 7))%Z with 2%Z. lra.
Qed.
