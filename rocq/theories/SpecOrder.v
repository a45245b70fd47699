(** * What an order and an equality must satisfy (C50) *)
From Coq Require Import ZArith NArith List Bool Arith Permutation Reals.
From Flocq Require Import IEEE754.BinarySingleNaN.
From Verif Require Import Dbl Syntax.
Import ListNotations.

(** What the standard library requires of the comparison of a set or map, on the elements satisfying [P]. *)
Definition strict_weak_order {A : Type} (P : A -> Prop) (less : A -> A -> bool) : Prop :=
  (forall x, P x -> less x x = false) /\
  (forall x y z, P x -> P y -> P z -> less x y = true -> less y z = true -> less x z = true) /\
  (forall x y z, P x -> P y -> P z -> less x y = false -> less y x = false -> less y z = false -> less z y = false -> less x z = false /\ less z x = false).
Definition equivalence {A : Type} (P : A -> Prop) (eq : A -> A -> bool) : Prop :=
  (forall x, P x -> eq x x = true) /\
  (forall x y, P x -> P y -> eq x y = true -> eq y x = true) /\
  (forall x y z, P x -> P y -> P z -> eq x y = true -> eq y z = true -> eq x z = true).
(** Every constant, coefficient and bound satisfies [Pd], except that the constant NaN is allowed; [lit]: decimal literals are allowed;
    every variable satisfies [Pv]. *)
Section All.
  Variables (Pd : dbl -> Prop) (lit : Prop) (Pv : var -> Prop).
  Fixpoint numsE (e : expr) : Prop :=
    match e with
    | EConst c => is_nan c = true \/ Pd c
    | EReal lb ub _ => lit /\ Pd lb /\ Pd ub
    | EVar v => Pv v
    | EUf _ vs => Forall Pv vs
    | EAdd c ts => Pd c /\ fold_right (fun p n => match p with (a, k) => numsE a /\ Pd k /\ n end) True ts
    | EMul c ts => Pd c /\ fold_right (fun p n => match p with (a, k) => numsE a /\ numsE k /\ n end) True ts
    | EUn _ a => numsE a
    | EBin _ a b => numsE a /\ numsE b
    | EIte f a b => numsF f /\ numsE a /\ numsE b
    end
  with numsF (f : formula) : Prop :=
    match f with
    | FTrue | FFalse => True
    | FVar v => Pv v
    | FRel _ a b => numsE a /\ numsE b
    | FAnd fs => fold_right (fun g n => numsF g /\ n) True fs
    | FOr fs => fold_right (fun g n => numsF g /\ n) True fs
    | FNot g => numsF g
    | FForall vs g => Forall Pv vs /\ numsF g
    end.
End All.
Definition not_nan (c : dbl) : Prop := is_nan c = false.
(** No NaN among coefficients and bounds of literals *)
Definition nonanE := numsE not_nan True (fun _ => True).
Definition nonanF := numsF not_nan True (fun _ => True).
(** and no decimal literal *)
Definition plainlyE := numsE not_nan False (fun _ => True).
Definition plainlyF := numsF not_nan False (fun _ => True).

(** Pointers: equal cells have equal contents. *)
Definition cells {A : Type} (same : A -> A -> bool) : Prop := forall x y, same x y = true -> x = y.
(** What the standard requires of std::hash<double>: doubles that are == have the same hash. *)
Definition hash_ok (hd : dbl -> N) : Prop := forall a b, deq a b = true -> hd a = hd b.
(** Identifiers determine the type of a variable. *)
Definition typed (ty : nat -> vtype) (v : var) : Prop := vty v = ty (vid v).
(** The value of a decimal literal depends on its bounds as numbers. *)
Definition literals_ok (rc : dbl -> dbl -> Rdefinitions.R) : Prop := forall a b a' b', deq a a' = true -> deq b b' = true -> rc a b = rc a' b'.
(** Neither comes before the other. *)
Definition unordered {A : Type} (less : A -> A -> bool) (x y : A) : Prop := less x y = false /\ less y x = false.
(** Every later element is greater. *)
Definition increasing {A : Type} (less : A -> A -> bool) (l : list A) : Prop := ForallOrdPairs (fun x y => less x y = true) l.
