(** * Specification: how a .dr file is written down *)
From Coq Require Import List Bool Ascii String NArith.
From Verif Require Import Scan SpecScan DrScan.
Import ListNotations.
Local Open Scope char_scope.
Local Open Scope list_scope.

(** White space, or a comment from # up to the end of its line *)
Definition show_dr_gap (g : list gap_item) : text := flat_map (fun i => match i with Blank c => [c] | Comment t => "#" :: t ++ [LF] end) g.

Definition DR_WORDS : list string :=
  ["var"; "prec"; "ctr"; "cost"; "exp"; "log"; "abs"; "sin"; "cos"; "tan"; "asin"; "acos"; "atan"; "atan2"; "arcsin"; "arccos"; "arctan"; "arctan2";
   "sinh"; "cosh"; "tanh"; "min"; "max"; "sqrt"; "pow"; "and"; "or"; "not"; "implies"]%string.
Definition DR_OPS : list string := ["("; ")"; "["; "]"; ":"; ","; ";"; "+"; "-"; "*"; "/"; "^"; "="; "<="; ">="; "<"; ">"; "=>"]%string.
Definition DR_NAMES : list (string * string) :=
  [("[", "LB"); ("]", "RB"); (":", "COLON"); (",", "COMMA"); (";", "SEMICOLON"); ("+", "PLUS"); ("-", "MINUS"); ("*", "TIMES"); ("/", "DIV"); ("^", "CARET");
   ("=", "EQ"); ("<=", "LTE"); (">=", "GTE"); ("<", "LT"); (">", "GT"); ("=>", "IMPLIES"); ("arcsin", "ASIN"); ("arccos", "ACOS"); ("arctan", "ATAN"); ("arctan2", "ATAN2")]%string.
Definition dr_name (k : string) : string :=
  String.append "TK_" (match find (fun kv => String.eqb (fst kv) k) DR_NAMES with Some (_, v) => v | None => string_of_list_ascii (map upper (lit k)) end).

Inductive dlexeme :=
| DWord (k : string)
| DOp (k : string)
| DId (c : ascii) (w : text)
| DNum (ds fs ex : text).                    (* 12 or 12.034, perhaps with an exponent *)
Definition dlexeme_ok (l : dlexeme) : Prop :=
  match l with
  | DWord k => In k DR_WORDS
  | DOp k => In k DR_OPS
  | DId c w => In c LETTERS /\ incl w (LETTERS ++ DIGITS ++ ["_"; "."]) /\ ~ In (c :: w) (map lit DR_WORDS)
  | DNum ds fs ex => ds <> [] /\ incl ds DIGITS /\ (fs = [] \/ exists f, fs = "." :: f /\ f <> [] /\ incl f DIGITS) /\ exponent_ok ex
  end.
Definition show_dlexeme (l : dlexeme) : text := match l with DWord k | DOp k => lit k | DId c w => c :: w | DNum ds fs ex => ds ++ fs ++ ex end.
Definition dtoken_of (l : dlexeme) : token :=
  match l with
  | DWord k => TK (dr_name k)
  | DOp k => if String.eqb k "(" then CHAR "(" else if String.eqb k ")" then CHAR ")" else TK (dr_name k)
  | DId c w => SYMBOL (c :: w)
  | DNum ds fs ex => DOUBLE (ds ++ fs ++ ex)
  end.
Definition is_op (l : dlexeme) : Prop := exists k, l = DOp k.
(** < and > merge with a following =, and = with a following > *)
Definition merges (l l' : dlexeme) : Prop :=
  exists k, l = DOp k /\ (((k = "<" \/ k = ">")%string /\ hd LF (show_dlexeme l') = "=") \/ (k = "="%string /\ hd LF (show_dlexeme l') = ">")).

Fixpoint show_dr (items : list (list gap_item * dlexeme)) (last : list gap_item) : text :=
  match items with [] => show_dr_gap last | (g, l) :: items' => show_dr_gap g ++ show_dlexeme l ++ show_dr items' last end.
Fixpoint dr_separated (items : list (list gap_item * dlexeme)) : Prop :=
  match items with
  | (_, l) :: (((g, l') :: _) as items') => (g = [] -> (is_op l \/ is_op l') /\ ~ merges l l') /\ dr_separated items'
  | _ => True
  end.
Definition dr_file_ok (items : list (list gap_item * dlexeme)) (last : list gap_item) : Prop :=
  Forall (fun i => Forall gap_item_ok (fst i) /\ dlexeme_ok (snd i)) items /\ Forall gap_item_ok last /\ dr_separated items.
