(** C56: the words of a printed term are the tokens of the scanner. *)
From Coq Require Import List Ascii String.
From Flocq Require Import IEEE754.BinarySingleNaN.
From Verif Require Import Dbl Scan SpecPrefixScan PrefixScan ExamplesPrefixScan.
From Verif Require PrefixRead ExamplesPrefix.
Import ListNotations.
Local Open Scope char_scope.

(** C56: a text that reads back as a term is cut by the scanner of C60 into exactly the words the reader used: each parenthesis, reserved word, name
    and number arrives as one token of its own kind. *)
Theorem C56_text_scanned (under : mode -> string -> bool) (mid : dbl -> dbl -> dbl) (sym : string -> nat) (s : string) (t : Smt2.sterm) :
  PrefixRead.read_term under mid sym s = Some t ->
  exists ts l, PrefixRead.lex s "" = Some ts /\ scan (lit s) = Some l /\ Forall2 read_as ts l.
Proof. exact (read_scanned under mid sym s t). Qed.
Print Assumptions C56_text_scanned.

Example C56_tokens_example : scan (lit ExamplesPrefix.fp_text) = Some
  [CHAR "("; TK "TK_OR"; SYMBOL (lit "b"); CHAR "("; TK "TK_NOT"; CHAR "("; TK "TK_GTE"; CHAR "("; TK "TK_PLUS"; CHAR "("; TK "TK_MINUS"; INT (lit "3"); CHAR ")";
   CHAR "("; TK "TK_TIMES"; INT (lit "2"); SYMBOL (lit "x"); CHAR ")"; CHAR "("; TK "TK_TIMES"; SYMBOL (lit "x"); CHAR "("; TK "TK_POW"; CHAR "("; TK "TK_SIN"; SYMBOL (lit "y"); CHAR ")"; INT (lit "2"); CHAR ")"; CHAR ")"; CHAR ")";
   DOUBLE (lit "0.1000000000000000056"); CHAR ")"; CHAR ")"; CHAR ")"].
Proof. exact ex_text_tokens. Qed.
