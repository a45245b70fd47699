(** * Ordering, equality and sets of terms: C50

    [strict_weak_order], [equivalence], [nonanE], [plainlyE], [cells], [hash_ok], [typed], [literals_ok], [unordered], [increasing] are in
    SpecOrder.v. *)
From Coq Require Import ZArith NArith Reals List Bool.
From Flocq Require Import IEEE754.BinarySingleNaN.
From Verif Require Import Dbl Syntax Sem StdInterp ExprAlg Less SpecOrder OrderTop OrderUse ExamplesForm ExamplesAlg ExamplesOrder.
Import ListNotations.

(** ** Less is a strict weak order on the expressions and on the formulas without NaN coefficients, whatever cells are shared.
    Missing: NaN coefficients (C50_nan_refuted). *)
Theorem C50_strict_order_partial : forall same, cells same -> strict_weak_order nonanE (lessE same) /\ strict_weak_order nonanF (lessF same).
Proof. exact less_strict. Qed.
Print Assumptions C50_strict_order_partial.
Example C50_strict_order_example : @cells expr none /\ nonanE t1 /\ nonanE t2 /\ nonanE lit1 /\ nonanF f1 /\
  lessE none t1 t2 = true /\ lessE none t2 t1 = false /\ lessE none ex t1 = true /\ lessF none f1 f2 = true /\ lessF none f2 f3 = true.
Proof. exact order_meets. Qed.

(** ** EqualTo is an equivalence, whatever the hash functions and whatever cells are shared, and terms that are EqualTo are not ordered. *)
Theorem C50_equality_partial : forall same sameF hd hv hs htrue hfalse, cells same -> cells sameF -> hash_ok hd ->
  let eqE := equalE same hd hv hs htrue hfalse sameF in let eqF := equalF same hd hv hs htrue hfalse sameF in
  equivalence nonanE eqE /\ equivalence nonanF eqF /\
  (forall x y, nonanE x -> nonanE y -> eqE x y = true -> unordered (lessE same) x y) /\ (forall f g, nonanF f -> nonanF g -> eqF f g = true -> unordered (lessF same) f g).
Proof. exact equal_laws. Qed.
Print Assumptions C50_equality_partial.
(** ** Without decimal literals EqualTo and "neither is before the other" agree.  Missing: literals (C50_literals_refuted). *)
Theorem C50_equal_iff_unordered_partial : forall same sameF hd hv hs htrue hfalse, cells same -> cells sameF -> hash_ok hd ->
  let eqE := equalE same hd hv hs htrue hfalse sameF in let eqF := equalF same hd hv hs htrue hfalse sameF in
  (forall x y, plainlyE x -> plainlyE y -> (eqE x y = true <-> unordered (lessE same) x y)) /\ (forall f g, plainlyF f -> plainlyF g -> (eqF f g = true <-> unordered (lessF same) f g)).
Proof. exact equal_iff_unordered. Qed.
Print Assumptions C50_equal_iff_unordered_partial.
(** ** Terms that are EqualTo have the same value, or the same truth value, everywhere. *)
Theorem C50_equal_meaning : forall same sameF hd hv hs htrue hfalse, cells same -> cells sameF -> hash_ok hd -> forall M ty, literals_ok (i_rc M) ->
  (forall x y, numsE not_nan True (typed ty) x -> numsE not_nan True (typed ty) y -> equalE same hd hv hs htrue hfalse sameF x y = true -> forall rho, evalE M x rho = evalE M y rho) /\
  (forall f g, numsF not_nan True (typed ty) f -> numsF not_nan True (typed ty) g -> equalF same hd hv hs htrue hfalse sameF f g = true -> forall rho, holds M f rho <-> holds M g rho).
Proof. exact equal_means. Qed.
Print Assumptions C50_equal_meaning.
(** x + 2 y with the constant 0 and with the constant -0 *)
Example C50_equality_example : @cells expr none /\ @cells formula none /\ hash_ok hash1 /\ plainlyE t1 /\ plainlyE t1' /\ t1 <> t1' /\
  equalE none hash1 N.of_nat N.of_nat 1%N 2%N none t1 t1' = true /\ equalE none hash1 N.of_nat N.of_nat 1%N 2%N none t1 t2 = false /\
  (forall rho uf rc, evalE (std uf rc) t1 rho = (rho vx + rho vy * 2)%R) /\
  literals_ok mid_rc /\ numsE not_nan True (typed ty0) t1 /\ numsE not_nan True (typed ty0) t1'.
Proof. exact equality_meets. Qed.

(** ** The set built from formulas in some order is increasing, contains only given formulas and, for each one, one that is not ordered with it;
    another order of insertion gives the same set up to such formulas. *)
Theorem C50_sets_partial : forall same fs, cells same -> Forall nonanF fs ->
  increasing (lessF same) (set_of (lessF same) fs) /\ (forall f, In f (set_of (lessF same) fs) -> In f fs) /\ (forall f, In f fs -> exists g, In g (set_of (lessF same) fs) /\ unordered (lessF same) f g) /\
  forall gs, Forall nonanF gs -> (forall f, In f fs <-> In f gs) -> Forall2 (unordered (lessF same)) (set_of (lessF same) fs) (set_of (lessF same) gs).
Proof. exact sets_built. Qed.
Print Assumptions C50_sets_partial.
(** ** A conjunction or disjunction, which keeps its operands in such a set, means the conjunction or disjunction of all that were given.
    Missing: decimal literals (C50_literals_refuted). *)
Theorem C50_sets_meaning_partial : forall M ty same fs, cells same -> (forall f, In f fs -> numsF not_nan False (typed ty) f) ->
  forall rho, (holds M (FAnd (set_of (lessF same) fs)) rho <-> forall f, In f fs -> holds M f rho) /\ (holds M (FOr (set_of (lessF same) fs)) rho <-> exists f, In f fs /\ holds M f rho).
Proof. exact sets_mean. Qed.
Print Assumptions C50_sets_meaning_partial.
Example C50_sets_example : @cells expr none /\ Forall nonanF fs0 /\ (forall f, In f fs0 -> numsF not_nan False (typed ty0) f) /\ set_of (lessF none) fs0 = [f1; f2; f3].
Proof. exact sets_meet. Qed.

(** ** Two decimal literals with the same representative: constraints on them are not ordered, not EqualTo, and the conjunction of both keeps one;
    a point where the other fails satisfies it. *)
Theorem C50_literals_refuted : nonanF c1 /\ nonanF c2 /\ unordered (lessF none) c1 c2 /\ equalF none hash1 N.of_nat N.of_nat 1%N 2%N none c1 c2 = false /\ set_of (lessF none) [c1; c2] = [c1] /\
  forall uf, exists rho, holds (std uf mid_rc) (FAnd (set_of (lessF none) [c1; c2])) rho /\ ~ holds (std uf mid_rc) c2 rho.
Proof. exact literals_lost. Qed.
Print Assumptions C50_literals_refuted.
(** ** The operators build terms with NaN coefficients; on them Less is no strict weak order and EqualTo is not reflexive. *)
Theorem C50_nan_refuted : forall fpow, (exists t, nan_term_c fpow = (Val nan_term, t)) /\ (exists t, mk_sub fpow 9 ex ey = (Val one_term, t)) /\
  (exists t, bind (mk_mul fpow 9 (kk 2) ex) (fun a => mk_sub fpow 9 a ey) = (Val two_term, t)) /\
  unordered (lessE none) one_term nan_term /\ unordered (lessE none) nan_term two_term /\ lessE none one_term two_term = true /\
  equalE none hash1 N.of_nat N.of_nat 1%N 2%N none nan_term nan_term = false.
Proof. exact nan_unordered. Qed.
Print Assumptions C50_nan_refuted.
