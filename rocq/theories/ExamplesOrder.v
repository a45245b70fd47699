(** Terms compared and put into sets; cases that fail. *)
From Coq Require Import ZArith NArith Reals Lra Lia List Bool.
From Flocq Require Import Core.Core IEEE754.BinarySingleNaN.
From Verif Require Import Dbl DblProofs Syntax Sem SemProofs FormulaCons StdInterp Order ExprAlg SpecAlg Less SpecOrder OrderProofs OrderTop OrderEq OrderUse ExamplesForm ExamplesAlg.
Import ListNotations.
Local Open Scope R_scope.
Local Notation R := Rdefinitions.R.

Definition pos_zero : dbl := B754_zero false.
Definition neg_zero : dbl := B754_zero true.
(** No two cells are shared; a hash of doubles that is 0 on zeros. *)
Definition none {A : Type} (x y : A) : bool := false.
Definition hash1 (c : dbl) : N := if deq c (dZ 0) then 0%N else if is_finite c then 1%N else 2%N.
Lemma none_cells (A : Type) : @cells A none.
Proof. intros x y H. discriminate. Qed.
Lemma hash1_ok : hash_ok hash1.
Proof.
  intros a b H. unfold hash1.
  assert (E : deq a (dZ 0) = deq b (dZ 0)).
  { destruct a as [s|s| |s m e Ha], b as [s'|s'| |s' m' e' Hb]; try discriminate; try reflexivity; try (destruct s, s'; (discriminate || reflexivity)). }
  rewrite E. destruct (deq b (dZ 0)); [reflexivity|].
  destruct a as [s|s| |s m e Ha], b as [s'|s'| |s' m' e' Hb]; try discriminate; try reflexivity; destruct s, s'; (discriminate || reflexivity).
Qed.
(** x + 2 y, x + 3 y, sin(x + 2 y) with the zero constants of either sign *)
Definition t1 := EAdd pos_zero [(ex, dZ 1); (ey, dZ 2)].
Definition t1' := EAdd neg_zero [(ex, dZ 1); (ey, dZ 2)].
Definition t2 := EAdd pos_zero [(ex, dZ 1); (ey, dZ 3)].
Definition f1 := FRel RGeq t1 (kk 1).
Definition f2 := FRel RGeq t2 (kk 1).
Definition f3 := FNot (FRel REq t1' (kk 0)).
Definition ty0 (i : nat) : vtype := CONTINUOUS.
Lemma deq_val a b : deq a b = true -> B2R a = B2R b.
Proof.
  intros H. apply deq_true in H. destruct a as [s|s| |s m e Ha], b as [s'|s'| |s' m' e' Hb]; try reflexivity; try (destruct s, s'; discriminate); try (destruct s; discriminate); try (destruct s'; discriminate); try discriminate; cbn [d2e] in H; congruence.
Qed.
Ltac nums := repeat split; first [right; vm_compute; reflexivity|vm_compute; reflexivity|exact I].
Lemma order_meets : @cells expr none /\ nonanE t1 /\ nonanE t2 /\ nonanE lit1 /\ nonanF f1 /\ lessE none t1 t2 = true /\ lessE none t2 t1 = false /\ lessE none ex t1 = true /\ lessF none f1 f2 = true /\ lessF none f2 f3 = true.
Proof.
  split; [apply none_cells|]. repeat split; try (vm_compute; reflexivity); try (right; vm_compute; reflexivity); auto.
Qed.
Lemma equality_meets : @cells expr none /\ @cells formula none /\ hash_ok hash1 /\ plainlyE t1 /\ plainlyE t1' /\ t1 <> t1' /\
  equalE none hash1 N.of_nat N.of_nat 1%N 2%N none t1 t1' = true /\ equalE none hash1 N.of_nat N.of_nat 1%N 2%N none t1 t2 = false /\
  (forall rho uf rc, evalE (std uf rc) t1 rho = (rho vx + rho vy * 2)%R) /\ literals_ok mid_rc /\ numsE not_nan True (typed ty0) t1 /\ numsE not_nan True (typed ty0) t1'.
Proof.
  split; [apply none_cells|]. split; [apply none_cells|]. split; [exact hash1_ok|]. split; [repeat split; vm_compute; reflexivity|]. split; [repeat split; vm_compute; reflexivity|].
  split; [intros C; assert (X : (match t1 with EAdd (B754_zero s) _ => s | _ => true end) = (match t1' with EAdd (B754_zero s) _ => s | _ => true end)) by (rewrite C; reflexivity); vm_compute in X; discriminate|].
  split; [vm_compute; reflexivity|]. split; [vm_compute; reflexivity|].
  split; [|split; [|split; nums]]; [|intros a b a' b' H1 H2; unfold mid_rc; now rewrite (deq_val a a' H1), (deq_val b b' H2)].
  intros rho uf rc. cbn [evalE fold_right t1 ex ey].
  assert (B0 : B2R pos_zero = 0) by (apply (zof_val pos_zero 0); vm_compute; reflexivity).
  assert (B1 : B2R (dZ 1) = 1) by (apply zof_val; vm_compute; reflexivity).
  assert (B2 : B2R (dZ 2) = 2) by (apply zof_val; vm_compute; reflexivity).
  rewrite B0, B1, B2. lra.
Qed.
(** A set of three formulas given twice *)
Definition fs0 := [f2; f1; f3; f1; f2].
Lemma sets_meet : @cells expr none /\ Forall nonanF fs0 /\ (forall f, In f fs0 -> numsF not_nan False (typed ty0) f) /\ set_of (lessF none) fs0 = [f1; f2; f3].
Proof.
  split; [apply none_cells|]. split; [|split; [|]].
  - repeat (constructor; [nums|]). constructor.
  - intros f H. repeat (destruct H as [<-|H]; [nums|]). destruct H.
  - assert (E : formula_eqb (FAnd (set_of (lessF none) fs0)) (FAnd [f1; f2; f3]) = true) by (vm_compute; reflexivity). apply formula_eqb_eq in E.
    exact (f_equal (fun f => match f with FAnd l => l | _ => [] end) E).
Qed.

(** Two decimal literals with the same representative are not ordered although they are not equal, and stand for different numbers;
    the set of two constraints on them keeps one. *)
Definition c1 := FRel RGeq ex lit1.
Definition c2 := FRel RGeq ex lit2.
Lemma literals_lost : nonanF c1 /\ nonanF c2 /\ unordered (lessF none) c1 c2 /\ equalF none hash1 N.of_nat N.of_nat 1%N 2%N none c1 c2 = false /\ set_of (lessF none) [c1; c2] = [c1] /\ forall uf, exists rho, holds (std uf mid_rc) (FAnd (set_of (lessF none) [c1; c2])) rho /\ ~ holds (std uf mid_rc) c2 rho.
Proof.
  split; [nums|]. split; [nums|].
  assert (L1 : lessF none c2 c1 = false) by (vm_compute; reflexivity). assert (L2 : lessF none c1 c2 = false) by (vm_compute; reflexivity).
  split; [split; assumption|]. split; [vm_compute; reflexivity|].
  assert (E : set_of (lessF none) [c1; c2] = [c1]) by (unfold set_of; cbn [fold_left set_insert]; rewrite L1, L2; reflexivity).
  split; [exact E|]. intros uf. rewrite E. exists (fun _ => mid_rc (Bpred (dZ 1)) (dZ 1)).
  change ((mid_rc (Bpred (dZ 1)) (dZ 1) >= mid_rc (Bpred (dZ 1)) (dZ 1) /\ True) /\ ~ (mid_rc (Bpred (dZ 1)) (dZ 1) >= mid_rc (dZ 1) (Bsucc (dZ 1)))).
  split; [split; [apply Rge_refl|exact I]|]. unfold mid_rc.
  assert (L : B2R (Bpred (dZ 1)) < B2R (dZ 1) /\ B2R (dZ 1) < B2R (Bsucc (dZ 1))).
  { rewrite (zof_R (Bpred (dZ 1))), (zof_R (Bsucc (dZ 1))), !(zof_R (dZ 1)). pose proof (bpow_gt_0 radix2 (-1074)).
    split; apply Rmult_lt_compat_r; auto; apply IZR_lt; vm_compute; reflexivity. }
  lra.
Qed.
(** NaN coefficients: with s = 2^1023 x + 2^1023 x, the operators give s - (s + y) a NaN coefficient; the result is neither before nor after
    x - y and 2 x - y, which are ordered. *)
Definition big := EConst (mkd 1 1023).
Definition nan_term : expr := EAdd neg_zero [(ex, dnan); (ey, dZ (-1))].
Definition one_term : expr := EAdd (dZ 0) [(ex, dZ 1); (ey, dZ (-1))].
Definition two_term : expr := EAdd (dZ 0) [(ex, dZ 2); (ey, dZ (-1))].
Definition nan_term_c (fpow : dbl -> dbl -> dbl) : comp expr := bind (mk_mul fpow 9 big ex) (fun b => bind (mk_add fpow 9 b b) (fun s => bind (mk_add fpow 9 s ey) (fun u => mk_sub fpow 9 s u))).
Lemma nan_unordered : forall fpow, (exists t, nan_term_c fpow = (Val nan_term, t)) /\ (exists t, mk_sub fpow 9 ex ey = (Val one_term, t)) /\
  (exists t, bind (mk_mul fpow 9 (kk 2) ex) (fun a => mk_sub fpow 9 a ey) = (Val two_term, t)) /\
  unordered (lessE none) one_term nan_term /\ unordered (lessE none) nan_term two_term /\ lessE none one_term two_term = true /\
  equalE none hash1 N.of_nat N.of_nat 1%N 2%N none nan_term nan_term = false.
Proof.
  intros fpow. split; [apply ends_ok; vm_compute; reflexivity|]. split; [apply ends_ok; vm_compute; reflexivity|]. split; [apply ends_ok; vm_compute; reflexivity|].
  repeat split; vm_compute; reflexivity.
Qed.
