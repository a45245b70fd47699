(** The printed formula of ExamplesPrefix, as the scanner delivers it *)
From Coq Require Import List Bool Ascii String.
From Verif Require Import Scan.
From Verif Require PrefixRead ExamplesPrefix.
Import ListNotations.
Local Open Scope char_scope.

Lemma ex_text_tokens : scan (lit ExamplesPrefix.fp_text) = Some
  [CHAR "("; TK "TK_OR"; SYMBOL (lit "b"); CHAR "("; TK "TK_NOT"; CHAR "("; TK "TK_GTE"; CHAR "("; TK "TK_PLUS"; CHAR "("; TK "TK_MINUS"; INT (lit "3"); CHAR ")";
   CHAR "("; TK "TK_TIMES"; INT (lit "2"); SYMBOL (lit "x"); CHAR ")"; CHAR "("; TK "TK_TIMES"; SYMBOL (lit "x"); CHAR "("; TK "TK_POW"; CHAR "("; TK "TK_SIN"; SYMBOL (lit "y"); CHAR ")"; INT (lit "2"); CHAR ")"; CHAR ")"; CHAR ")";
   DOUBLE (lit "0.1000000000000000056"); CHAR ")"; CHAR ")"; CHAR ")"].
Proof. vm_compute. reflexivity. Qed.
