(** * Printing terms in prefix form

    Models symbolic/prefix_printer.cc (ToPrefix, also of the Python binding dreal_py.cc:556 and 641) with the formatting of doubles by an
    output stream of precision 19 (printf's "%.19g"). *)
From Coq Require Import ZArith List Bool Ascii String.
From Flocq Require Import IEEE754.BinarySingleNaN.
From Verif Require Import Dbl Syntax MathConv ExprAlg SpecLiteral Literal.
Import ListNotations.
Local Open Scope string_scope.
Local Open Scope Z_scope.

(** ** operator<<(ostream, double) with precision(max_digits10 + 2), prefix_printer.cc:40-45 *)
Definition dig_of (z : Z) : dig :=
  if z =? 0 then D0 else if z =? 1 then D1 else if z =? 2 then D2 else if z =? 3 then D3 else if z =? 4 then D4
  else if z =? 5 then D5 else if z =? 6 then D6 else if z =? 7 then D7 else if z =? 8 then D8 else D9.
(** the last [k] digits of [m], in front of [acc] *)
Fixpoint digs (k : nat) (m : Z) (acc : list dig) : list dig :=
  match k with O => acc | S k' => digs k' (m / 10) (dig_of (m mod 10) :: acc) end.
Definition is_D0 (d : dig) : bool := match d with D0 => true | _ => false end.
(** without trailing zeros *)
Fixpoint strip (l : list dig) : list dig :=
  match l with [] => [] | d :: l' => match strip l' with [] => if is_D0 d then [] else [d] | r => d :: r end end.
(** 10^k <= num / den *)
Definition ge10 (num den k : Z) : bool := dec_num 1 k * den <=? num * dec_den k.
(** the largest such k, from [k] downwards *)
Fixpoint top10 (n : nat) (num den k : Z) : Z :=
  match n with O => k | S n' => if ge10 num den k then k else top10 n' num den (k - 1) end.
(** num / den to the nearest integer, ties to even *)
Definition nearest_even (num den : Z) : Z :=
  let q := num / den in let r := num mod den in
  if 2 * r <? den then q else if den <? 2 * r then q + 1 else if Z.even q then q else q + 1.
(** num / den = m * 10^(x - 18) with 19 digits in m, rounded: (m, x) *)
Definition sci19 (num den : Z) : Z * Z :=
  let x := top10 640 num den 309 in
  let m := nearest_even (num * dec_num 1 (18 - x)) (den * dec_den (18 - x)) in
  if m =? 10 ^ 19 then (10 ^ 18, x + 1) else (m, x).
(** "%.19g": fixed notation if the exponent is from -4 to 18, otherwise with an exponent of at least two digits; no trailing zeros *)
Definition frac_opt (l : list dig) : option (list dig) := match strip l with [] => None | r => Some r end.
Definition exp_digits (x : Z) : list dig := if x <? 100 then digs 2 x [] else digs 3 x [].
Definition g19 (m x : Z) : numeral :=
  let ds := digs 19 m [] in
  if (-4 <=? x) && (x <? 19) then
    if 0 <=? x then {| n_sign := NoSign; n_int := firstn (Z.to_nat (x + 1)) ds; n_frac := frac_opt (skipn (Z.to_nat (x + 1)) ds); n_exp := None |}
    else {| n_sign := NoSign; n_int := [D0]; n_frac := frac_opt (repeat D0 (Z.to_nat (- x - 1)) ++ ds)%list; n_exp := None |}
  else {| n_sign := NoSign; n_int := firstn 1 ds; n_frac := frac_opt (skipn 1 ds);
          n_exp := Some (false, if x <? 0 then Minus else Plus, exp_digits (Z.abs x)) |}.
Definition num_of (m : positive) (e : Z) : Z := if 0 <=? e then Zpos m * 2 ^ e else Zpos m.
Definition den_of (e : Z) : Z := if 0 <=? e then 1 else 2 ^ (- e).
Definition fmt19 (c : dbl) : string :=
  match c with
  | B754_zero s => if s then "-0" else "0"
  | B754_infinity s => if s then "-inf" else "inf"
  | B754_nan => "nan"
  | B754_finite s m e _ => let (d, x) := sci19 (num_of m e) (den_of e) in (if s then "-" else "") ++ show (g19 d x)
  end.

(** ** The printer *)
(** print_constant, prefix_printer.cc:30-36 *)
Definition print_constant (c : dbl) : string := if dge c dzero then fmt19 c else "(- " ++ fmt19 (Bopp c) ++ ")".
(** The names used by the visitors, 135-205 *)
Definition un_name (o : unop) : string :=
  match o with
  | ULog => "log" | UAbs => "abs" | UExp => "exp" | USqrt => "sqrt" | USin => "sin" | UCos => "cos" | UTan => "tan"
  | UAsin => "asin" | UAcos => "acos" | UAtan => "atan" | USinh => "sinh" | UCosh => "cosh" | UTanh => "tanh"
  end.
Definition bin_name (o : binop) : string := match o with BDiv => "/" | BPow => "^" | BAtan2 => "atan2" | BMin => "min" | BMax => "max" end.
(** 229-275; != prints a negated equality *)
Definition rel_open (o : relop) : string :=
  match o with REq => "(= " | RNeq => "(not (= " | RGt => "(> " | RGeq => "(>= " | RLt => "(< " | RLeq => "(<= " end.
Definition rel_close (o : relop) : string := match o with RNeq => "))" | _ => ")" end.
Definition is_oneE (e : expr) : bool := match e with EConst c => deq c done | _ => false end.
Definition bind2 (x y : option string) (k : string -> string -> string) : option string :=
  match x, y with Some a, Some b => Some (k a b) | _, _ => None end.

Section Print.
  Variable name : var -> string.   (* Variable::get_name *)
  (** [None]: throws (uninterpreted functions, 217-219; forall, 301-303).  The order of the operands is that of the lists. *)
  Fixpoint printE (e : expr) : option string :=
    match e with
    | EConst c => Some (print_constant c)                                                     (* 61-63 *)
    | EReal lb ub _ => Some (print_constant (dadd (ddiv lb dtwo) (ddiv ub dtwo)))             (* 65-69 *)
    | EVar v => Some (name v)                                                                 (* 57-59 *)
    | EAdd c ts =>                                                                            (* 87-109 *)
        let items := fold_right (fun p acc => match p with (a, k) =>
          bind2 (printE a) acc (fun x r => (if deq k done then " " ++ x else " (* " ++ print_constant k ++ " " ++ x ++ ")") ++ r) end) (Some "") ts in
        option_map (fun r => "(+" ++ (if deq c dzero then "" else " " ++ print_constant c) ++ r ++ ")") items
    | EMul c ts =>                                                                            (* 111-133 *)
        let items := fold_right (fun p acc => match p with (a, b) =>
          bind2 (if is_oneE b then option_map (fun x => " " ++ x) (printE a)
                 else bind2 (printE a) (printE b) (fun x y => " (^ " ++ x ++ " " ++ y ++ ")")) acc (fun x r => x ++ r) end) (Some "") ts in
        option_map (fun r => "(*" ++ (if deq c done then "" else " " ++ print_constant c) ++ r ++ ")") items
    | EUn o a => option_map (fun x => "(" ++ un_name o ++ " " ++ x ++ ")") (printE a)          (* 71-76 *)
    | EBin o a b => bind2 (printE a) (printE b) (fun x y => "(" ++ bin_name o ++ " " ++ x ++ " " ++ y ++ ")")    (* 78-85 *)
    | EIte f a b =>                                                                           (* 207-215 *)
        match printF f with
        | Some c => bind2 (printE a) (printE b) (fun x y => "(ite " ++ c ++ " " ++ x ++ " " ++ y ++ ")")
        | None => None
        end
    | EUf _ _ => None
    end
  with printF (f : formula) : option string :=
    match f with
    | FTrue => Some "true"                                                                    (* 223 *)
    | FFalse => Some "false"                                                                  (* 221 *)
    | FVar v => Some (name v)                                                                 (* 225-227 *)
    | FRel o a b => bind2 (printE a) (printE b) (fun x y => rel_open o ++ x ++ " " ++ y ++ rel_close o)
    | FAnd fs => option_map (fun r => "(and" ++ r ++ ")") (fold_right (fun g acc => bind2 (printF g) acc (fun x r => " " ++ x ++ r)) (Some "") fs)   (* 277-284 *)
    | FOr fs => option_map (fun r => "(or" ++ r ++ ")") (fold_right (fun g acc => bind2 (printF g) acc (fun x r => " " ++ x ++ r)) (Some "") fs)     (* 286-293 *)
    | FNot g => option_map (fun x => "(not " ++ x ++ ")") (printF g)                           (* 295-299 *)
    | FForall _ _ => None
    end.
End Print.
