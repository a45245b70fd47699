(** * The scanner of .dr files

    Models dr/scanner.ll with the matching discipline of flex as in Scan.v.  A number carries its text; an
    identifier is the token SYMBOL.  Locations and debug output are left out. *)
From Coq Require Import List Bool Ascii String NArith.
From Verif Require Import Scan.
Import ListNotations.
Local Open Scope char_scope.
Local Open Scope list_scope.

(** 80-123: words, brackets and operators *)
Definition dr_table : list (string * string) :=
  [("var","TK_VAR"); ("cost","TK_COST"); ("prec","TK_PREC"); ("ctr","TK_CTR");
   ("[","TK_LB"); ("]","TK_RB"); (":","TK_COLON"); (",","TK_COMMA"); (";","TK_SEMICOLON");
   ("+","TK_PLUS"); ("-","TK_MINUS"); ("*","TK_TIMES"); ("/","TK_DIV"); ("=","TK_EQ"); ("<=","TK_LTE"); (">=","TK_GTE"); ("<","TK_LT"); (">","TK_GT");
   ("exp","TK_EXP"); ("log","TK_LOG"); ("abs","TK_ABS"); ("sin","TK_SIN"); ("cos","TK_COS"); ("tan","TK_TAN"); ("asin","TK_ASIN"); ("arcsin","TK_ASIN");
   ("acos","TK_ACOS"); ("arccos","TK_ACOS"); ("atan","TK_ATAN"); ("arctan","TK_ATAN"); ("atan2","TK_ATAN2"); ("arctan2","TK_ATAN2"); ("sinh","TK_SINH");
   ("cosh","TK_COSH"); ("tanh","TK_TANH"); ("min","TK_MIN"); ("max","TK_MAX"); ("sqrt","TK_SQRT"); ("pow","TK_POW"); ("^","TK_CARET");
   ("implies","TK_IMPLIES"); ("=>","TK_IMPLIES"); ("and","TK_AND"); ("or","TK_OR"); ("not","TK_NOT")]%string.
(** 76-78 *)
Definition dr_comment : re := Seq (ch "#") (Seq (Star (Cls dot)) (plus (Cls (oneof [LF; CR])))).
(** 126-133 *)
Definition dr_blanks : re := plus (Cls (oneof [" "; TAB; CR])).
Definition dr_newline : re := ch LF.
(** 135-148 *)
Definition d_int : re := Alt (ch "0") (Seq (Cls (between "1" "9")) (Star (Cls digit))).
Definition d_double : re := Seq (Alt digits (Seq (Star (Cls digit)) (Seq (opt (ch ".")) digits))) exponent.
Definition d_double2 : re := Alt digits (Seq digits (ch ".")).
(** 150-153 *)
Definition id_continue (c : ascii) : bool := letter c || digit c || oneof ["_"; "."] c.
Definition d_id : re := Seq (Cls letter) (Star (Cls id_continue)).
(** All rules in order; 156-158 is the last. *)
Definition dr_rules : list (re * action) :=
  (dr_comment, Skip) :: map (fun kv => (word (lit (fst kv)), Emit (fun _ => TK (snd kv)))) dr_table ++
  [(dr_blanks, Skip); (dr_newline, Skip); (d_int, Emit DOUBLE); (d_double, Emit DOUBLE); (d_double2, Emit DOUBLE); (d_id, Emit SYMBOL);
   (Cls dot, Emit (fun t => CHAR (first_char t)))].
Fixpoint dr_scan_n (n : nat) (s : text) : option (list token) :=
  match n with
  | O => match s with [] => Some [] | _ => None end
  | S n' =>
      match pick dr_rules s with
      | Some (k, Skip) => dr_scan_n n' (skipn k s)
      | Some (k, Emit f) => option_map (cons (f (firstn k s))) (dr_scan_n n' (skipn k s))
      | _ => Some []
      end
  end.
Definition dr_scan (s : text) : option (list token) := dr_scan_n (List.length s) s.
