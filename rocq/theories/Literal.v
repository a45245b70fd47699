(** * Numeric literals of SMT-LIB files

    Models the scanner's number rules (smt2/scanner.ll 183-206), the parser's actions for them (smt2/parser.yy 378-390),
    StringToInterval (util/string_to_interval.cc 25-35), RoundingModeGuard (util/rounding_mode_guard.h 22-46), and strtod, stod and stol of
    the C and C++ libraries as far as decimal digits go.

    Simplification: strtod rounds in the current rounding mode, as the note in string_to_interval.h assumes; whether the library reports an
    inexact result of magnitude at most DBL_MIN as an underflow is an arbitrary function [under]. *)
From Coq Require Import ZArith Bool Ascii String.
From Flocq Require Import Core.Core IEEE754.BinarySingleNaN.
From Verif Require Import Dbl Interval Syntax MathConv.
Local Open Scope string_scope.
Local Open Scope Z_scope.

(** A leading sign: true for minus *)
Definition take_sign (s : string) : bool * string :=
  match s with
  | String c r => if Ascii.eqb c "-" then (true, r) else if Ascii.eqb c "+" then (false, r) else (false, s)
  | EmptyString => (false, s)
  end.
Definition digit (c : ascii) : option Z :=
  let n := Z.of_nat (nat_of_ascii c) - 48 in if (0 <=? n) && (n <=? 9) then Some n else None.
(** The longest prefix of digits: value appended to [v], count added to [k], rest *)
Fixpoint take_digits (s : string) (v k : Z) : Z * Z * string :=
  match s with
  | String c r => match digit c with Some d => take_digits r (10 * v + d) (k + 1) | None => (v, k, s) end
  | EmptyString => (v, k, s)
  end.
(** What strtod reads of a decimal number: sign, m, e of m * 10^e; [None]: no conversion *)
Definition strtod_reads (s : string) : option (bool * Z * Z) :=
  let (sg, s1) := take_sign s in
  let '(v1, k1, s2) := take_digits s1 0 0 in
  let '(v2, k2, s3) := match s2 with String c r => if Ascii.eqb c "." then take_digits r v1 0 else (v1, 0, s2) | _ => (v1, 0, s2) end in
  if k1 + k2 =? 0 then None else
  let e := match s3 with
    | String c r => if Ascii.eqb c "e" || Ascii.eqb c "E" then
        let (sg', r') := take_sign r in let '(x, k, _) := take_digits r' 0 0 in if k =? 0 then 0 else if sg' then - x else x
      else 0
    | _ => 0
    end in
  Some (sg, v2, e - k2).

(** m * 10^e as a fraction *)
Definition dec_num (m e : Z) : Z := if 0 <=? e then m * 10 ^ e else m.
Definition dec_den (e : Z) : Z := if 0 <=? e then 1 else 10 ^ (- e).
Definition of_SF (z : SpecFloat.spec_float) : dbl :=
  match Bool.bool_dec (SpecFloat.valid_binary prec64 emax64 z) true with left H => SF2B z H | right _ => dnan end.
(** (-1)^s m 10^e, rounded *)
Definition round_dec (md : mode) (s : bool) (m e : Z) : dbl :=
  if m =? 0 then B754_zero s else
  let n := dec_num m e * 2 ^ 1074 in let d := dec_den e in
  let r := n mod d in
  of_SF (binary_round_aux prec64 emax64 md s (n / d) (-1074) (if r =? 0 then SpecFloat.loc_Exact else SpecFloat.loc_Inexact (Z.compare (2 * r) d))).
Definition exactly (m e : Z) (c : dbl) : bool :=
  match c with
  | B754_zero _ => m =? 0
  | B754_finite _ x k _ => dec_num m e * 2 ^ 1074 =? Zpos x * 2 ^ (k + 1074) * dec_den e
  | _ => false
  end.

Section Stod.
  (** is an underflow reported? *)
  Variable under : mode -> string -> bool.
  (** std::stod; [None]: throws invalid_argument or out_of_range *)
  Definition stod (md : mode) (s : string) : option dbl :=
    match strtod_reads s with
    | None => None
    | Some (sg, m, e) =>
        let c := round_dec md sg m e in
        if negb (is_finite c) || (2 ^ 1024 * dec_den e <=? dec_num m e) then None
        else if negb (exactly m e c) && dle (Babs c) dmin_normal && under md s then None
        else Some c
    end.
  (** StringToInterval: everything is read rounding upward *)
  Definition string_to_interval (s : string) : option (dbl * dbl) :=
    match stod mode_UP s with
    | None => None
    | Some ub =>
        match (match s with
               | String c r => if Ascii.eqb c "-" then stod mode_UP r else stod mode_UP (append "-" s)
               | EmptyString => stod mode_UP (append "-" s)
               end) with
        | None => None
        | Some l => Some (Bopp l, ub)
        end
    end.
  Variable mid : dbl -> dbl -> dbl.   (* Interval::mid *)
  (** DOUBLE, parser.yy 378-388 *)
  Definition read_double (s : string) : option expr :=
    match string_to_interval s with
    | None => None
    | Some (lb, ub) =>
        match stod mode_NE s with
        | None => None
        | Some parsed => Some (if deq (i_diam (IV lb ub)) dzero then EConst (mid lb ub) else EReal lb ub (deq lb parsed))
        end
    end.
  (** INT: the rule [-+]?(0|[1-9][0-9]* ), scanner.ll 183-195; std::stol throws outside int64; parser.yy 390 *)
  Definition is_int (s : string) : bool :=
    let s1 := snd (take_sign s) in
    match s1 with
    | String c r => match digit c with
        | Some d => match take_digits r 0 0 with (_, _, EmptyString) => negb (d =? 0) || match r with EmptyString => true | _ => false end | _ => false end
        | None => false
        end
    | EmptyString => false
    end.
  Definition read_int (s : string) : option expr :=
    let (sg, s1) := take_sign s in
    let '(v, _, _) := take_digits s1 0 0 in
    let z := if sg then - v else v in
    if (- 2 ^ 63 <=? z) && (z <? 2 ^ 63) then option_map EConst (convert_int64_to_double z) else None.
  (** The lexeme of a number: both rules match it, the first one wins. *)
  Definition read_number (s : string) : option expr := if is_int s then read_int s else read_double s.
End Stod.
