(** * The scanner of SMT-LIB files

    Models smt2/scanner.ll and the matching discipline of flex: the longest match wins and, among equally
    long ones, the rule written first.  Regular expressions are matched by derivatives.  A text is a
    list of bytes.  Locations and debug output are left out; the values of numbers are those of C51
    (Literal.v), so a number carries its text. *)
From Coq Require Import List Bool Ascii String NArith.
Import ListNotations.
Local Open Scope char_scope.
Local Open Scope list_scope.
Notation text := (list ascii).
Definition lit (s : string) : text := list_ascii_of_string s.
Definition chr (n : N) : ascii := ascii_of_N n.
Definition TAB := chr 9. Definition LF := chr 10. Definition CR := chr 13. Definition QUOTE := chr 34. Definition BSL := chr 92. Definition BAR := chr 124.

(** ** Regular expressions *)
Inductive re := Void | Eps | Cls (p : ascii -> bool) | Seq (a b : re) | Alt (a b : re) | Star (a : re).
Fixpoint nullable (r : re) : bool :=
  match r with Void | Cls _ => false | Eps | Star _ => true | Seq a b => nullable a && nullable b | Alt a b => nullable a || nullable b end.
Definition mkSeq (a b : re) : re := match a with Void => Void | Eps => b | _ => Seq a b end.
Definition mkAlt (a b : re) : re := match a with Void => b | _ => match b with Void => a | _ => Alt a b end end.
Fixpoint deriv (c : ascii) (r : re) : re :=
  match r with
  | Void | Eps => Void
  | Cls p => if p c then Eps else Void
  | Seq a b => if nullable a then mkAlt (mkSeq (deriv c a) b) (deriv c b) else mkSeq (deriv c a) b
  | Alt a b => mkAlt (deriv c a) (deriv c b)
  | Star a => mkSeq (deriv c a) (Star a)
  end.
Fixpoint derivs (s : text) (r : re) : re := match s with [] => r | c :: s' => derivs s' (deriv c r) end.
Definition matchb (r : re) (s : text) : bool := nullable (derivs s r).
(** The length of the longest prefix of [s] that [r] matches; [n] bytes have been read. *)
Fixpoint longest_from (n : nat) (best : option nat) (r : re) (s : text) : option nat :=
  let best' := if nullable r then Some n else best in
  match s with [] => best' | c :: s' => longest_from (S n) best' (deriv c r) s' end.
Definition longest (r : re) (s : text) : option nat := longest_from 0 None r s.

(** ** Classes, scanner.ll 64-76 *)
Definition is (d c : ascii) : bool := Ascii.eqb d c.
Definition oneof (s : text) (c : ascii) : bool := existsb (Ascii.eqb c) s.
Definition between (lo hi c : ascii) : bool := (N.leb (N_of_ascii lo) (N_of_ascii c) && N.leb (N_of_ascii c) (N_of_ascii hi))%N.
Definition digit (c : ascii) : bool := between "0" "9" c.
Definition hex (c : ascii) : bool := digit c || between "a" "f" c || between "A" "F" c.
Definition letter (c : ascii) : bool := between "a" "z" c || between "A" "Z" c.
Definition special_char (c : ascii) : bool := oneof (lit "+-/*=%?!.$_~&^<>@") c.
Definition sym_begin (c : ascii) : bool := letter c || special_char c.
Definition sym_continue (c : ascii) : bool := sym_begin c || digit c.
Definition dot (c : ascii) : bool := negb (is LF c).      (* . is every byte but the newline *)
Definition plus (r : re) : re := Seq r (Star r).
Definition opt (r : re) : re := Alt Eps r.
Definition ch (c : ascii) : re := Cls (is c).
Fixpoint word (s : text) : re := match s with [] => Eps | c :: s' => Seq (ch c) (word s') end.

Inductive token :=
| TK (name : string)        (* a token without value *)
| INT (t : text) | DOUBLE (t : text) | HEXFLOAT (t : text) | SYMBOL (t : text) | KEYWORD (t : text) | STRING (t : text)
| CHAR (c : ascii).         (* 241-243: any other byte, passed to bison *)
Inductive action := Skip | Emit (f : text -> token) | BeginStr | BeginQuoted.

(** 95-172: reserved words and the tokens they stand for *)
Definition reserved : list (string * string) :=
  [("!","TK_EXCLAMATION"); ("BINARY","TK_BINARY"); ("DECIMAL","TK_DECIMAL"); ("HEXADECIMAL","TK_HEXADECIMAL"); ("NUMERAL","TK_NUMERAL"); ("STRING","TK_STRING");
   ("_","TK_UNDERSCORE"); ("as","TK_AS"); ("exists","TK_EXISTS"); ("forall","TK_FORALL"); ("let","TK_LET"); ("par","TK_PAR");
   ("assert","TK_ASSERT"); ("check-sat","TK_CHECK_SAT"); ("check-sat-assuming","TK_CHECK_SAT_ASSUMING"); ("declare-const","TK_DECLARE_CONST");
   ("declare-fun","TK_DECLARE_FUN"); ("declare-sort","TK_DECLARE_SORT"); ("define-fun","TK_DEFINE_FUN"); ("define-fun-rec","TK_DEFINE_FUN_REC");
   ("define-sort","TK_DEFINE_SORT"); ("echo","TK_ECHO"); ("exit","TK_EXIT"); ("get-assertions","TK_GET_ASSERTIONS"); ("get-assignment","TK_GET_ASSIGNMENT");
   ("get-info","TK_GET_INFO"); ("get-model","TK_GET_MODEL"); ("get-option","TK_GET_OPTION"); ("get-proof","TK_GET_PROOF");
   ("get-unsat-assumptions","TK_GET_UNSAT_ASSUMPTIONS"); ("get-unsat-core","TK_GET_UNSAT_CORE"); ("get-value","TK_GET_VALUE"); ("pop","TK_POP"); ("push","TK_PUSH");
   ("reset","TK_RESET"); ("reset-assertions","TK_RESET_ASSERTIONS"); ("set-info","TK_SET_INFO"); ("set-logic","TK_SET_LOGIC"); ("set-option","TK_SET_OPTION");
   ("+","TK_PLUS"); ("-","TK_MINUS"); ("*","TK_TIMES"); ("/","TK_DIV"); ("=","TK_EQ"); ("<=","TK_LTE"); (">=","TK_GTE"); ("<","TK_LT"); (">","TK_GT");
   ("exp","TK_EXP"); ("log","TK_LOG"); ("abs","TK_ABS"); ("sin","TK_SIN"); ("cos","TK_COS"); ("tan","TK_TAN"); ("asin","TK_ASIN"); ("arcsin","TK_ASIN");
   ("acos","TK_ACOS"); ("arccos","TK_ACOS"); ("atan","TK_ATAN"); ("arctan","TK_ATAN"); ("atan2","TK_ATAN2"); ("arctan2","TK_ATAN2"); ("sinh","TK_SINH");
   ("cosh","TK_COSH"); ("tanh","TK_TANH"); ("min","TK_MIN"); ("max","TK_MAX"); ("maximize","TK_MAXIMIZE"); ("minimize","TK_MINIMIZE"); ("sqrt","TK_SQRT");
   ("^","TK_POW"); ("pow","TK_POW"); ("true","TK_TRUE"); ("false","TK_FALSE"); ("and","TK_AND"); ("or","TK_OR"); ("xor","TK_XOR"); ("not","TK_NOT");
   ("ite","TK_ITE"); ("=>","TK_IMPLIES")]%string.

(** 91-93 *)
Definition comment : re := Seq (ch ";") (Seq (Star (Cls dot)) (plus (Cls (oneof [LF; CR])))).
(** 175-182 *)
Definition blanks : re := plus (Cls (oneof [" "; TAB; CR])).
Definition newline : re := ch LF.
(** 184-197: [-+]?(0|[1-9][0-9]* ) *)
Definition sign : re := opt (Cls (oneof ["-"; "+"])).
Definition digits : re := plus (Cls digit).
Definition exponent : re := opt (Seq (Cls (oneof ["e"; "E"])) (Seq sign digits)).
Definition r_int : re := Seq sign (Alt (ch "0") (Seq (Cls (between "1" "9")) (Star (Cls digit)))).
(** 199-202 and 204-207 *)
Definition r_double : re := Seq sign (Seq (Alt digits (Seq (Star (Cls digit)) (Seq (opt (ch ".")) digits))) exponent).
Definition r_double2 : re := Seq sign (Alt digits (Seq digits (ch "."))).
(** 209-212 *)
Definition r_hex : re := Seq sign (Seq (ch "0") (Seq (Cls (oneof ["x"; "X"]))
  (Seq (Alt (Seq (plus (Cls hex)) (opt (ch "."))) (Seq (Star (Cls hex)) (Seq (ch ".") (plus (Cls hex)))))
       (opt (Seq (Cls (oneof ["p"; "P"])) (Seq sign digits)))))).
(** 214-222 *)
Definition r_symbol : re := Seq (Cls sym_begin) (Star (Cls sym_continue)).
Definition r_keyword : re := Seq (ch ":") r_symbol.
Definition first_char (t : text) : ascii := match t with c :: _ => c | [] => chr 0 end.
(** The rules of the initial state, in order; 224 and 233 start the other two states. *)
Definition rules : list (re * action) :=
  (comment, Skip) :: map (fun kv => (word (lit (fst kv)), Emit (fun _ => TK (snd kv)))) reserved ++
  [(blanks, Skip); (newline, Skip); (r_int, Emit INT); (r_double, Emit DOUBLE); (r_double2, Emit DOUBLE); (r_hex, Emit HEXFLOAT);
   (r_symbol, Emit SYMBOL); (r_keyword, Emit KEYWORD); (ch QUOTE, BeginStr); (ch BAR, BeginQuoted);
   (Cls dot, Emit (fun t => CHAR (first_char t)))].
Fixpoint pick (rs : list (re * action)) (s : text) : option (nat * action) :=
  match rs with
  | [] => None
  | (r, a) :: rs' =>
      match longest r s, pick rs' s with
      | Some n, Some (m, b) => if Nat.ltb n m then Some (m, b) else Some (n, a)
      | Some n, None => Some (n, a)
      | None, x => x
      end
  end.
(** 225-231, after the opening quote: yymore() keeps what has been read ([acc], reversed).  [None]: the
    end of the file inside a string ends the scan. *)
Fixpoint in_str (acc : text) (s : text) : option (text * text) :=
  match s with
  | [] => None
  | c :: s' =>
      if is QUOTE c then
        match s' with
        | d :: s'' => if is QUOTE d then in_str (d :: c :: acc) s'' else Some (rev (c :: acc), s')
        | [] => Some (rev (c :: acc), s')
        end
      else in_str (c :: acc) s'
  end.
(** 234-240.  A backslash has no yymore(): what was read so far is forgotten. *)
Fixpoint in_quoted (acc : text) (s : text) : option (text * text) :=
  match s with
  | [] => None
  | c :: s' => if is BAR c then Some (rev (c :: acc), s') else if is BSL c then in_quoted [] s' else in_quoted (c :: acc) s'
  end.
(** All tokens up to the end of the file; [n] bounds the number of tokens. *)
Fixpoint scan_n (n : nat) (s : text) : option (list token) :=
  match n with
  | O => match s with [] => Some [] | _ => None end
  | S n' =>
      match pick rules s with
      | None => Some []
      | Some (k, a) =>
          match a with
          | Skip => scan_n n' (skipn k s)
          | Emit f => option_map (cons (f (firstn k s))) (scan_n n' (skipn k s))
          | BeginStr => match in_str [QUOTE] (skipn k s) with Some (t, s') => option_map (cons (STRING t)) (scan_n n' s') | None => Some [] end
          | BeginQuoted => match in_quoted [BAR] (skipn k s) with Some (t, s') => option_map (cons (SYMBOL t)) (scan_n n' s') | None => Some [] end
          end
      end
  end.
Definition scan (s : text) : option (list token) := scan_n (List.length s) s.
