(** * Specification: how an SMT-LIB file is written down

    A file is a sequence of lexemes with gaps before, between and after them.  This is the lexicon of the
    SMT-LIB standard (section 3.1), without the # constants, extended by signed numbers
    and hexadecimal floating-point numbers. *)
From Coq Require Import List Bool Ascii String NArith.
From Verif Require Import Scan.
From Verif Require SpecLiteral.
Import ListNotations.
Local Open Scope char_scope.
Local Open Scope list_scope.

(** White space, or a comment up to the end of its line *)
Inductive gap_item := Blank (c : ascii) | Comment (t : text).
Definition gap_item_ok (g : gap_item) : Prop := match g with Blank c => In c [" "; TAB; LF; CR] | Comment t => ~ In LF t end.
Definition show_gap_item (g : gap_item) : text := match g with Blank c => [c] | Comment t => ";" :: t ++ [LF] end.
Definition show_gap (g : list gap_item) : text := flat_map show_gap_item g.

Definition DIGITS := lit "0123456789".
Definition LETTERS := lit "abcdefghijklmnopqrstuvwxyzABCDEFGHIJKLMNOPQRSTUVWXYZ".
Definition SPECIALS := lit "+-/*=%?!.$_~&^<>@".
Definition SYMBOLIC := LETTERS ++ SPECIALS ++ DIGITS.
Definition signs : list text := [[]; lit "+"; lit "-"].

(** The words that are not names: those of the standard (general, commands), and the operators and functions
    of this solver.  The token of a word is its name in capitals, with - written as _ . *)
Definition WORDS : list string :=
  ["!"; "_"; "as"; "BINARY"; "DECIMAL"; "exists"; "HEXADECIMAL"; "forall"; "let"; "NUMERAL"; "par"; "STRING"]%string ++
  ["assert"; "check-sat"; "check-sat-assuming"; "declare-const"; "declare-fun"; "declare-sort"; "define-fun"; "define-fun-rec"; "define-sort"; "echo"; "exit";
   "get-assertions"; "get-assignment"; "get-info"; "get-model"; "get-option"; "get-proof"; "get-unsat-assumptions"; "get-unsat-core"; "get-value";
   "pop"; "push"; "reset"; "reset-assertions"; "set-info"; "set-logic"; "set-option"; "maximize"; "minimize"]%string ++
  ["true"; "false"; "not"; "and"; "or"; "xor"; "=>"; "ite"; "="; "<"; "<="; ">"; ">="; "+"; "-"; "*"; "/"; "^"; "pow"; "sqrt"; "exp"; "log"; "abs"; "min"; "max";
   "sin"; "cos"; "tan"; "asin"; "acos"; "atan"; "atan2"; "arcsin"; "arccos"; "arctan"; "arctan2"; "sinh"; "cosh"; "tanh"]%string.
Definition upper (c : ascii) : ascii :=
  if Ascii.eqb c "-" then "_" else if N.leb 97 (N_of_ascii c) && N.leb (N_of_ascii c) 122 then ascii_of_N (N_of_ascii c - 32) else c.
Definition WORD_NAMES : list (string * string) :=
  [("!", "EXCLAMATION"); ("_", "UNDERSCORE"); ("+", "PLUS"); ("-", "MINUS"); ("*", "TIMES"); ("/", "DIV"); ("=", "EQ"); ("<=", "LTE"); (">=", "GTE"); ("<", "LT"); (">", "GT");
   ("^", "POW"); ("=>", "IMPLIES"); ("arcsin", "ASIN"); ("arccos", "ACOS"); ("arctan", "ATAN"); ("arctan2", "ATAN2")]%string.
Definition token_name (k : string) : string :=
  String.append "TK_" (match find (fun kv => String.eqb (fst kv) k) WORD_NAMES with Some (_, v) => v | None => string_of_list_ascii (map upper (lit k)) end).

Inductive lexeme :=
| Reserved (k : string)                      (* a reserved word *)
| Symbol (c : ascii) (w : text)
| Number (t : SpecLiteral.numeral)           (* -12, 007, .5, 1., -12.034e+5: the numbers of C51 *)
| HexFloat (sg : text) (x : ascii) (hs : text) (f : option text) (ex : text)   (* -0x1.8p-3; [f]: what follows the point *)
| Attribute (c : ascii) (w : text)           (* :name *)
| Open | Close
| Str (t : text)                             (* the contents *)
| Quoted (t : text).
Definition exponent_ok (ex : text) : Prop :=
  ex = [] \/ exists e sg es, ex = e :: sg ++ es /\ In e ["e"; "E"] /\ In sg signs /\ incl es DIGITS /\ es <> [].
Definition HEX := lit "0123456789abcdefABCDEF".
Definition hex_ok (sg : text) (x : ascii) (hs : text) (f : option text) (ex : text) : Prop :=
  In sg signs /\ In x ["x"; "X"] /\ incl hs HEX /\ match f with None => hs <> [] | Some fs => incl fs HEX /\ (hs <> [] \/ fs <> []) end /\
  (ex = [] \/ exists p sg' es, ex = p :: sg' ++ es /\ In p ["p"; "P"] /\ In sg' signs /\ incl es DIGITS /\ es <> []).
Definition show_hex (sg : text) (x : ascii) (hs : text) (f : option text) (ex : text) : text :=
  sg ++ "0" :: x :: hs ++ match f with None => [] | Some fs => "." :: fs end ++ ex.
(** A symbol does not begin with a digit, is not a reserved word and is not one of those numbers. *)
Definition is_number (w : text) : Prop :=
  (exists t, SpecLiteral.well_formed t /\ lit (SpecLiteral.show t) = w) \/ exists sg x hs f ex, hex_ok sg x hs f ex /\ show_hex sg x hs f ex = w.
Definition symbol_ok (c : ascii) (w : text) : Prop :=
  incl (c :: w) SYMBOLIC /\ ~ In c DIGITS /\ ~ In (c :: w) (map lit WORDS) /\ ~ is_number (c :: w).
Definition lexeme_ok (l : lexeme) : Prop :=
  match l with
  | Reserved k => In k WORDS
  | Symbol c w => symbol_ok c w
  | Number t => SpecLiteral.well_formed t
  | HexFloat sg x hs f ex => hex_ok sg x hs f ex
  | Attribute c w => incl (c :: w) SYMBOLIC /\ ~ In c DIGITS
  | Open | Close | Str _ => True
  | Quoted t => ~ In BAR t /\ ~ In BSL t
  end.
(** In a string a quotation mark is written twice. *)
Fixpoint escape (t : text) : text := match t with [] => [] | c :: t' => if Ascii.eqb QUOTE c then QUOTE :: QUOTE :: escape t' else c :: escape t' end.
Definition show_lexeme (l : lexeme) : text :=
  match l with
  | Reserved k => lit k
  | Symbol c w => c :: w
  | Number t => lit (SpecLiteral.show t)
  | HexFloat sg x hs f ex => show_hex sg x hs f ex
  | Attribute c w => ":" :: c :: w
  | Open => ["("] | Close => [")"]
  | Str t => QUOTE :: escape t ++ [QUOTE]
  | Quoted t => BAR :: t ++ [BAR]
  end.
(** An integer: no point, no exponent, no superfluous zero in front *)
Definition whole (t : SpecLiteral.numeral) : bool :=
  match SpecLiteral.n_frac t, SpecLiteral.n_exp t, SpecLiteral.n_int t with
  | None, None, [_] => true
  | None, None, d :: _ :: _ => match d with SpecLiteral.D0 => false | _ => true end
  | _, _, _ => false
  end.
(** What the parser should be given *)
Definition token_of (l : lexeme) : token :=
  match l with
  | Reserved k => TK (token_name k)
  | Symbol c w => SYMBOL (c :: w)
  | Number t => if whole t then INT (lit (SpecLiteral.show t)) else DOUBLE (lit (SpecLiteral.show t))
  | HexFloat sg x hs f ex => HEXFLOAT (show_hex sg x hs f ex)
  | Attribute c w => KEYWORD (":" :: c :: w)
  | Open => CHAR "(" | Close => CHAR ")"
  | Str t => STRING (QUOTE :: escape t ++ [QUOTE])
  | Quoted t => SYMBOL (BAR :: t ++ [BAR])
  end.
Definition paren (l : lexeme) : Prop := l = Open \/ l = Close.

(** A file: gap, lexeme, gap, lexeme, ..., gap *)
Fixpoint show (items : list (list gap_item * lexeme)) (last : list gap_item) : text :=
  match items with [] => show_gap last | (g, l) :: items' => show_gap g ++ show_lexeme l ++ show items' last end.
(** Only next to a parenthesis may a gap be empty. *)
Fixpoint separated (items : list (list gap_item * lexeme)) : Prop :=
  match items with
  | (_, l) :: (((g, l') :: _) as items') => (g = [] -> paren l \/ paren l') /\ separated items'
  | _ => True
  end.
Definition file_ok (items : list (list gap_item * lexeme)) (last : list gap_item) : Prop :=
  Forall (fun i => Forall gap_item_ok (fst i) /\ lexeme_ok (snd i)) items /\ Forall gap_item_ok last /\ separated items.
