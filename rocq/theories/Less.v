(** * Comparison, equality and hash of expressions and formulas, and the ordered sets built with them

    Models [Less], [EqualTo] and [get_hash] (directory third_party/com_github_robotlocomotion_drake/dreal/symbolic):
    symbolic_expression.cc 191-232, symbolic_expression_cell.cc 237-304, 313-317, 336-348, 384-401, 426-452, 476-493,
    513-518, 535-583, 771-776, 795-845, 1998-2003, 2017-2044, 2091-2118, symbolic_formula.cc 82-110,
    symbolic_formula_cell.cc 33-38, 46-60, 62-108, 124-165, 177-208, 502-519, 538-563, symbolic_variables.cc 31-33, 72-81,
    hash.h 15-75.

    Simplification: function names are numbers; a NaN cell is the constant NaN. *)
From Coq Require Import ZArith NArith List Bool Arith.
From Flocq Require Import IEEE754.BinarySingleNaN.
From Verif Require Import Dbl Syntax Order.
Import ListNotations.

(** hash.h 70-74, on 64-bit words *)
Definition w64 : N := 18446744073709551616%N.
Definition hcomb (seed v : N) : N :=
  N.lxor seed ((v + 2654435769 + N.modulo (N.shiftl seed 6) w64 + N.shiftr seed 2) mod w64)%N.
(** hash_range, hash.h 24-30 *)
Definition hrange (l : list N) : N := fold_left hcomb l 0%N.

(** (Less(x, y), Less(y, x)) when a first component is compared before a second: "if (a.Less(b)) return true;
    if (b.Less(a)) return false; ..." *)
Definition seq2 (p q : bool * bool) : bool * bool :=
  (if fst p then true else if snd p then false else fst q, if snd p then true else if fst p then false else snd q).
Definition lt2 (a b : dbl) : bool * bool := (dlt a b, dlt b a).
Definition nat2 (a b : nat) : bool * bool := (Nat.ltb a b, Nat.ltb b a).
(** std::lexicographical_compare in both directions *)
Section Lex2.
  Context {A : Type} (less2 : A -> A -> bool * bool).
  Fixpoint lex2 (l m : list A) : bool * bool :=
    match l, m with
    | [], [] => (false, false)
    | [], _ :: _ => (true, false)
    | _ :: _, [] => (false, true)
    | x :: l', y :: m' => seq2 (less2 x y) (lex2 l' m')
    end.
End Lex2.
(** std::equal with four iterators *)
Section Equal.
  Context {A : Type} (eq : A -> A -> bool).
  Fixpoint equal (l m : list A) : bool :=
    match l, m with
    | [], [] => true
    | x :: l', y :: m' => eq x y && equal l' m'
    | _, _ => false
    end.
End Equal.
Definition vless2 (v w : var) : bool * bool := nat2 (vid v) (vid w).
Definition veq (v w : var) : bool := Nat.eqb (vid v) (vid w).

Section Less.
  (** pointer equality of the cells of two expressions *)
  Variable same : expr -> expr -> bool.
  Fixpoint less2E (x y : expr) {struct x} : bool * bool :=
    if same x y then (false, false) else
    match x, y with
    | EConst a, EConst b => seq2 (nat2 (kindE x) (kindE y)) (if is_nan a then (false, false) else lt2 a b)
    | EReal a b u, EReal a' b' u' => lt2 (rep a b u) (rep a' b' u')
    | EVar v, EVar w => vless2 v w
    | EAdd c ts, EAdd d us =>
        seq2 (lt2 c d)
          (lex2 (fun (p q : expr * dbl) =>
            match p with (a, k) => match q with (b, j) => seq2 (less2E a b) (lt2 k j) end end) ts us)
    | EMul c ts, EMul d us =>
        seq2 (lt2 c d)
          (lex2 (fun (p q : expr * expr) =>
            match p with (a, k) => match q with (b, j) => seq2 (less2E a b) (less2E k j) end end) ts us)
    | EUn _ a, EUn _ b => seq2 (nat2 (kindE x) (kindE y)) (less2E a b)
    | EBin _ a b, EBin _ c d => seq2 (nat2 (kindE x) (kindE y)) (seq2 (less2E a c) (less2E b d))
    | EIte f a b, EIte g c d => seq2 (less2F f g) (seq2 (less2E a c) (less2E b d))
    | EUf n vs, EUf m ws => seq2 (nat2 n m) (lex2 vless2 vs ws)
    | _, _ => nat2 (kindE x) (kindE y)
    end
  with less2F (f g : formula) {struct f} : bool * bool :=
    match f, g with
    | FVar v, FVar w => vless2 v w
    | FRel _ a b, FRel _ c d => seq2 (nat2 (kindF f) (kindF g)) (seq2 (less2E a c) (less2E b d))
    | FAnd fs, FAnd gs => lex2 less2F fs gs
    | FOr fs, FOr gs => lex2 less2F fs gs
    | FNot a, FNot b => less2F a b
    | FForall vs a, FForall ws b => seq2 (lex2 vless2 vs ws) (less2F a b)
    | _, _ => nat2 (kindF f) (kindF g)
    end.
  (** Expression::Less, Formula::Less *)
  Definition lessE (x y : expr) : bool := fst (less2E x y).
  Definition lessF (f g : formula) : bool := fst (less2F f g).

  Section Hash.
    (** std::hash of doubles, of variable identifiers and of function names, and of the two words "True" and "False" *)
    Variables (hd : dbl -> N) (hv hs : nat -> N) (htrue hfalse : N).
    Definition hvars (vs : list var) : N := hrange (map (fun v => hv (vid v)) vs).
    Fixpoint hashE (e : expr) : N :=
      let h := match e with
        | EConst c => if is_nan c then 41%N else hd c
        | EReal lb _ _ => hd lb
        | EVar v => hv (vid v)
        | EAdd c ts => hcomb (hd c) (hrange (map (fun p => match p with (a, k) => hcomb (hcomb 0 (hashE a)) (hd k) end) ts))
        | EMul c ts => hcomb (hd c) (hrange (map (fun p => match p with (a, k) => hcomb (hcomb 0 (hashE a)) (hashE k) end) ts))
        | EUn _ a => hashE a
        | EBin _ a b => hcomb (hashE a) (hashE b)
        | EIte f a b => hcomb (hcomb (hashF f) (hashE a)) (hashE b)
        | EUf n vs => hcomb (hs n) (hvars vs)
        end in hcomb (N.of_nat (kindE e)) h
    with hashF (f : formula) : N :=
      let h := match f with
        | FTrue => htrue
        | FFalse => hfalse
        | FVar v => hv (vid v)
        | FRel _ a b => hcomb (hashE a) (hashE b)
        | FAnd fs => hrange (map hashF fs)
        | FOr fs => hrange (map hashF fs)
        | FNot g => hashF g
        | FForall vs g => hcomb (hvars vs) (hashF g)
        end in hcomb h (N.of_nat (kindF f)).

    (** pointer equality of the cells of two formulas *)
    Variable sameF : formula -> formula -> bool.
    (** Expression::EqualTo, Formula::EqualTo *)
    Fixpoint equalE (x y : expr) {struct x} : bool :=
      if same x y then true else if negb (Nat.eqb (kindE x) (kindE y)) then false else if negb (N.eqb (hashE x) (hashE y)) then false else
      match x, y with
      | EConst a, EConst b => if is_nan a then true else deq a b
      | EReal a b u, EReal a' b' u' => deq a a' && deq b b' && Bool.eqb u u'
      | EVar v, EVar w => veq v w
      | EAdd c ts, EAdd d us =>
          deq c d && equal (fun (p q : expr * dbl) => match p with (a, k) => match q with (b, j) => equalE a b && deq k j end end) ts us
      | EMul c ts, EMul d us =>
          deq c d && equal (fun (p q : expr * expr) => match p with (a, k) => match q with (b, j) => equalE a b && equalE k j end end) ts us
      | EUn _ a, EUn _ b => equalE a b
      | EBin _ a b, EBin _ c d => equalE a c && equalE b d
      | EIte f a b, EIte g c d => equalF f g && equalE a c && equalE b d
      | EUf n vs, EUf m ws => Nat.eqb n m && equal veq vs ws
      | _, _ => false
      end
    with equalF (f g : formula) {struct f} : bool :=
      if sameF f g then true else if negb (Nat.eqb (kindF f) (kindF g)) then false else if negb (N.eqb (hashF f) (hashF g)) then false else
      match f, g with
      | FTrue, FTrue => true
      | FFalse, FFalse => true
      | FVar v, FVar w => veq v w
      | FRel _ a b, FRel _ c d => equalE a c && equalE b d
      | FAnd fs, FAnd gs => equal equalF fs gs
      | FOr fs, FOr gs => equal equalF fs gs
      | FNot a, FNot b => equalF a b
      | FForall vs a, FForall ws b => equal veq vs ws && equalF a b
      | _, _ => false
      end.
  End Hash.
End Less.

(** std::set<K, less>::insert, as the increasing list of its elements: an element that is neither less nor greater than one already in the
    set is not inserted *)
Section Set_.
  Context {K : Type} (less : K -> K -> bool).
  Fixpoint set_insert (k : K) (s : list K) : list K :=
    match s with
    | [] => [k]
    | x :: s' => if less k x then k :: s else if less x k then x :: set_insert k s' else s
    end.
  Definition set_of (ks : list K) : list K := fold_left (fun s k => set_insert k s) ks [].
End Set_.
