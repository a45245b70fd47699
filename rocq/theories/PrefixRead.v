(** * Reading terms back

    Models the part of the SMT-LIB reader that prefix text without let and forall goes through: the scanner (smt2/scanner.ll:64-206) on
    words, parentheses and white space, and the shape of the grammar's [term] (smt2/parser.yy:283-488).
    Simplifications: the LALR parser is written as "balance the parentheses, then match the operator"; white space, parentheses and symbol
    characters are the only characters (a comment, a string, a quoted symbol and a keyword with a colon give no result); a word that begins
    like a number without being one gives no result (flex would cut it in two); hexadecimal numbers give no result. *)
From Coq Require Import ZArith List Bool Ascii String.
From Flocq Require Import IEEE754.BinarySingleNaN.
From Verif Require Import Dbl Syntax Literal Smt2.
From Verif Require Scan.
Import ListNotations.
Local Open Scope string_scope.

Inductive tok := TOpen | TClose | TWord (w : string).
(** whitespace and newlines, scanner.ll:173-181 *)
Definition is_space (c : ascii) : bool := let n := nat_of_ascii c in (n =? 32)%nat || (n =? 9)%nat || (n =? 10)%nat || (n =? 13)%nat.
(** sym_begin and sym_continue, scanner.ll:72-76 *)
Definition is_letter (c : ascii) : bool := let n := nat_of_ascii c in ((65 <=? n)%nat && (n <=? 90)%nat) || ((97 <=? n)%nat && (n <=? 122)%nat).
Definition is_digit (c : ascii) : bool := match digit c with Some _ => true | None => false end.
Definition is_special (c : ascii) : bool := existsb (Ascii.eqb c) ["+"; "-"; "/"; "*"; "="; "%"; "?"; "!"; "."; "$"; "_"; "~"; "&"; "^"; "<"; ">"; "@"]%char.
Definition sym_begin (c : ascii) : bool := is_letter c || is_special c.
Definition sym_char (c : ascii) : bool := sym_begin c || is_digit c.
Definition flush (w : string) (l : list tok) : list tok := match w with EmptyString => l | _ => TWord w :: l end.
(** The tokens of a text; [w] is the word being read *)
Fixpoint lex (s w : string) : option (list tok) :=
  match s with
  | EmptyString => Some (flush w [])
  | String c r =>
      if Ascii.eqb c "(" then option_map (fun l => flush w (TOpen :: l)) (lex r "")
      else if Ascii.eqb c ")" then option_map (fun l => flush w (TClose :: l)) (lex r "")
      else if is_space c then option_map (flush w) (lex r "")
      else if sym_char c then lex r (w ++ String c "")
      else None
  end.

(** Balancing the parentheses: [cur] is the list being read, last first, [st] the enclosing ones *)
Inductive sexp := SA (w : string) | SL (l : list sexp).
Fixpoint build (ts : list tok) (cur : list sexp) (st : list (list sexp)) : option (list sexp) :=
  match ts with
  | [] => match st with [] => Some (rev cur) | _ => None end
  | TOpen :: r => build r [] (cur :: st)
  | TClose :: r => match st with p :: st' => build r (SL (rev cur) :: p) st' | [] => None end
  | TWord w :: r => build r (SA w :: cur) st
  end.

(** The reserved words, scanner.ll:91-170 *)
Definition reserved : list string :=
  ["!"; "BINARY"; "DECIMAL"; "HEXADECIMAL"; "NUMERAL"; "STRING"; "_"; "as"; "exists"; "forall"; "let"; "par"; "assert"; "check-sat"; "check-sat-assuming";
   "declare-const"; "declare-fun"; "declare-sort"; "define-fun"; "define-fun-rec"; "define-sort"; "echo"; "exit"; "get-assertions"; "get-assignment";
   "get-info"; "get-model"; "get-option"; "get-proof"; "get-unsat-assumptions"; "get-unsat-core"; "get-value"; "pop"; "push"; "reset"; "reset-assertions";
   "set-info"; "set-logic"; "set-option"; "+"; "-"; "*"; "/"; "="; "<="; ">="; "<"; ">"; "exp"; "log"; "abs"; "sin"; "cos"; "tan"; "asin"; "arcsin";
   "acos"; "arccos"; "atan"; "arctan"; "atan2"; "arctan2"; "sinh"; "cosh"; "tanh"; "min"; "max"; "maximize"; "minimize"; "sqrt"; "^"; "pow"; "true";
   "false"; "and"; "or"; "xor"; "not"; "ite"; "=>"].
Definition is_reserved (w : string) : bool := existsb (String.eqb w) reserved.
(** The rules for INT and DOUBLE, scanner.ll:183-206: does the whole word match one? *)
Definition is_number (w : string) : bool :=
  let s1 := snd (take_sign w) in
  let '(_, k1, s2) := take_digits s1 0 0 in
  let '(dot, k2, s3) := match s2 with String c r => if Ascii.eqb c "." then let '(_, k, r') := take_digits r 0 0 in (true, k, r') else (false, 0%Z, s2) | _ => (false, 0%Z, s2) end in
  if (k1 + k2 =? 0)%Z then false else
  match s3 with
  | EmptyString => true
  | String c r => (Ascii.eqb c "e" || Ascii.eqb c "E") && negb (dot && (k2 =? 0)%Z) &&
      let '(_, k, r') := take_digits (snd (take_sign r)) 0 0 in negb (k =? 0)%Z && match r' with EmptyString => true | _ => false end
  end.
(** HEXFLOAT, scanner.ll:209-212; the other words are simple_symbols *)
Definition is_hex (w : string) : bool := Scan.matchb Scan.r_hex (list_ascii_of_string w).
Fixpoint all_chars (p : ascii -> bool) (s : string) : bool := match s with EmptyString => true | String c r => p c && all_chars p r end.
Definition is_symbol (w : string) : bool :=
  match w with String c r => sym_begin c && all_chars sym_char r | EmptyString => false end && negb (is_reserved w) && negb (is_hex w) && negb (is_number w).

Section Read.
  Variable under : mode -> string -> bool.     (* see Literal *)
  Variable mid : dbl -> dbl -> dbl.
  Variable sym : string -> nat.                (* the number of a name *)
  Definition un_op (w : string) : option unop :=
    if String.eqb w "exp" then Some UExp else if String.eqb w "log" then Some ULog else if String.eqb w "abs" then Some UAbs
    else if String.eqb w "sin" then Some USin else if String.eqb w "cos" then Some UCos else if String.eqb w "tan" then Some UTan
    else if String.eqb w "asin" || String.eqb w "arcsin" then Some UAsin else if String.eqb w "acos" || String.eqb w "arccos" then Some UAcos
    else if String.eqb w "atan" || String.eqb w "arctan" then Some UAtan else if String.eqb w "sinh" then Some USinh
    else if String.eqb w "cosh" then Some UCosh else if String.eqb w "tanh" then Some UTanh else if String.eqb w "sqrt" then Some USqrt else None.
  Definition bin_op (w : string) : option binop :=
    if String.eqb w "atan2" || String.eqb w "arctan2" then Some BAtan2 else if String.eqb w "min" then Some BMin
    else if String.eqb w "max" then Some BMax else if String.eqb w "^" || String.eqb w "pow" then Some BPow else None.
  Definition rel_op (w : string) : option relop :=
    if String.eqb w "<" then Some RLt else if String.eqb w "<=" then Some RLeq else if String.eqb w ">" then Some RGt
    else if String.eqb w ">=" then Some RGeq else None.
  (** INT, DOUBLE, TK_TRUE, TK_FALSE, SYMBOL: parser.yy:288-289, 378-402 *)
  Definition rd_atom (w : string) : option sterm :=
    if is_number w then
      match read_number under mid w with Some (EConst c) => Some (SNum c) | Some (EReal lb ub u) => Some (SDec lb ub u) | _ => None end
    else if String.eqb w "true" then Some STrue else if String.eqb w "false" then Some SFalse
    else if is_symbol w then Some (SSym (sym w)) else None.
  (** The alternatives "( operator terms )", parser.yy:290-377, 403-488 *)
  Definition rd_app (w : string) (l : list sterm) : option sterm :=
    if String.eqb w "=" then match l with [a; b] => Some (SEq a b) | _ => None end
    else if String.eqb w "and" then match l with [] => None | _ => Some (SAnd l) end
    else if String.eqb w "or" then match l with [] => None | _ => Some (SOr l) end
    else if String.eqb w "xor" then match l with [] => None | _ => Some (SXor l) end
    else if String.eqb w "not" then match l with [a] => Some (SNot a) | _ => None end
    else if String.eqb w "=>" then match l with [a; b] => Some (SImp a b) | _ => None end
    else if String.eqb w "ite" then match l with [c; a; b] => Some (SIte c a b) | _ => None end
    else if String.eqb w "+" then match l with a :: r => Some (SAri APlus a r) | _ => None end
    else if String.eqb w "-" then match l with [a] => Some (SNeg a) | a :: r => Some (SAri AMinus a r) | _ => None end
    else if String.eqb w "*" then match l with a :: b :: r => Some (SAri ATimes a (b :: r)) | _ => None end
    else if String.eqb w "/" then match l with a :: b :: r => Some (SAri ADiv a (b :: r)) | _ => None end
    else match rel_op w with Some o => match l with [a; b] => Some (SRel o a b) | _ => None end | None =>
         match un_op w with Some o => match l with [a] => Some (SFun o a) | _ => None end | None =>
         match bin_op w with Some o => match l with [a; b] => Some (SFun2 o a b) | _ => None end | None =>
         if is_symbol w then match l with [] => None | _ => Some (SApp (sym w) l) end else None end end end.
  Fixpoint rd (x : sexp) : option sterm :=
    match x with
    | SA w => rd_atom w
    | SL (SA w :: args) =>
        match fold_right (fun a acc => match rd a, acc with Some t, Some l => Some (t :: l) | _, _ => None end) (Some []) args with
        | Some l => rd_app w l
        | None => None
        end
    | SL _ => None
    end.
  (** A text that is one term *)
  Definition read_term (s : string) : option sterm :=
    match lex s "" with
    | Some ts => match build ts [] [] with Some [x] => rd x | _ => None end
    | None => None
    end.
End Read.
