(** * What a numeric literal stands for (C51) *)
From Coq Require Import ZArith Reals List Bool Ascii String.
From Flocq Require Import Core.Core IEEE754.BinarySingleNaN.
From Verif Require Import Dbl Syntax.
Import ListNotations.
Local Open Scope string_scope.

Inductive dig := D0 | D1 | D2 | D3 | D4 | D5 | D6 | D7 | D8 | D9.
Definition dval (d : dig) : Z := match d with D0 => 0 | D1 => 1 | D2 => 2 | D3 => 3 | D4 => 4 | D5 => 5 | D6 => 6 | D7 => 7 | D8 => 8 | D9 => 9 end%Z.
Definition dshow (d : dig) : ascii := match d with D0 => "0" | D1 => "1" | D2 => "2" | D3 => "3" | D4 => "4" | D5 => "5" | D6 => "6" | D7 => "7" | D8 => "8" | D9 => "9" end%char.
Inductive sgn := NoSign | Plus | Minus.
(** [sign] digits [. digits] [(e|E) [sign] digits] *)
Record numeral := { n_sign : sgn; n_int : list dig; n_frac : option (list dig); n_exp : option (bool * sgn * list dig) }.
Definition well_formed (t : numeral) : Prop :=
  match n_frac t with
  | None => n_int t <> []
  | Some [] => n_int t <> [] /\ n_exp t = None
  | Some _ => True
  end /\ match n_exp t with None => True | Some (_, _, ds) => ds <> [] end.
(** Its text *)
Definition show_sign (s : sgn) : string := match s with NoSign => "" | Plus => "+" | Minus => "-" end.
Definition show_digits (ds : list dig) : string := fold_right (fun d s => String (dshow d) s) "" ds.
Definition show (t : numeral) : string :=
  show_sign (n_sign t) ++ show_digits (n_int t) ++ match n_frac t with None => "" | Some ds => "." ++ show_digits ds end ++
  match n_exp t with None => "" | Some (upper, s, ds) => (if upper then "E" else "e") ++ show_sign s ++ show_digits ds end.
(** Its value *)
Definition number (ds : list dig) : Z := fold_left (fun v d => 10 * v + dval d)%Z ds 0%Z.
Definition signed (s : sgn) (z : Z) : Z := match s with Minus => (- z)%Z | _ => z end.
Definition fraction (t : numeral) : list dig := match n_frac t with None => [] | Some ds => ds end.
Definition exponent (t : numeral) : Z := match n_exp t with None => 0%Z | Some (_, s, ds) => signed s (number ds) end.
Definition value (t : numeral) : R :=
  (IZR (signed (n_sign t) (number (n_int t ++ fraction t))) * powerRZ 10 (exponent t - Z.of_nat (List.length (fraction t))))%R.
(** Digits only, without superfluous zeros in front *)
Definition integral (t : numeral) : Prop := n_frac t = None /\ n_exp t = None /\ match n_int t with [] => False | [_] => True | d :: _ => d <> D0 end.

(** [lb] and [ub] are neighbours: no double lies strictly between them. *)
Definition neighbours (lb ub : dbl) : Prop := forall d : dbl, is_finite d = true -> (B2R d <= B2R lb \/ B2R ub <= B2R d)%R.
(** No double is nearer to [x]. *)
Definition nearest (c : dbl) (x : R) : Prop := forall d : dbl, is_finite d = true -> (Rabs (B2R c - x) <= Rabs (B2R d - x))%R.
(** The term stands for [x]: it is the double [x], or the neighbours around [x] of which the nearer one is the representative. *)
Definition stands_for (e : expr) (x : R) : Prop :=
  (exists c, e = EConst c /\ is_finite c = true /\ B2R c = x) \/
  (exists lb ub u, e = EReal lb ub u /\ is_finite lb = true /\ is_finite ub = true /\ (B2R lb < x < B2R ub)%R /\ neighbours lb ub /\ nearest (if u then lb else ub) x).
