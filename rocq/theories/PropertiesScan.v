(** * C60: tokens of an SMT-LIB file *)
From Coq Require Import List Ascii String.
From Verif Require Import Scan SpecScan ScanProofs ExamplesScan.
From Verif Require SpecLiteral.
Import ListNotations.
Local Open Scope char_scope.
Local Open Scope list_scope.

(** C60: every lexeme is read as the token it stands for, and the gaps between them leave no trace. *)
Theorem C60_lexemes_read_back (items : list (list gap_item * lexeme)) (last : list gap_item) :
  file_ok items last -> scan (show items last) = Some (map (fun i => token_of (snd i)) items).
Proof. exact (scan_show items last). Qed.
Print Assumptions C60_lexemes_read_back.

(** C60: blanks, line breaks and comments can be changed freely. *)
Theorem C60_layout_irrelevant (items items' : list (list gap_item * lexeme)) (last last' : list gap_item) :
  file_ok items last -> file_ok items' last' -> map snd items = map snd items' ->
  scan (show items last) = scan (show items' last').
Proof. exact (scan_layout items items' last last'). Qed.
Print Assumptions C60_layout_irrelevant.

Example C60_example : file_ok ex_items [Comment (lit "end")] /\ scan (show ex_items [Comment (lit "end")]) = Some
  [CHAR "("; TK "TK_SET_INFO"; KEYWORD (lit ":source"); SYMBOL (lit "|a paper|"); CHAR ")";
   CHAR "("; TK "TK_ASSERT"; CHAR "("; TK "TK_LTE"; SYMBOL (lit "x_1"); DOUBLE (lit "-2.50e+07"); CHAR ")"; CHAR ")";
   CHAR "("; TK "TK_ECHO"; STRING [QUOTE; QUOTE; QUOTE; ";"; QUOTE]; SYMBOL (lit "-x"); INT (lit "10"); HEXFLOAT (lit "-0x1.8p-3"); CHAR ")"].
Proof. exact (conj ex_ok ex_tokens). Qed.

(** C60: every number whose value C51 settles reaches the parser as one number token with its text unchanged, as an integer exactly if it is one. *)
Theorem C60_numbers_are_numbers (t : SpecLiteral.numeral) : SpecLiteral.well_formed t ->
  (SpecLiteral.integral t -> scan (lit (SpecLiteral.show t)) = Some [INT (lit (SpecLiteral.show t))]) /\
  (~ SpecLiteral.integral t -> scan (lit (SpecLiteral.show t)) = Some [DOUBLE (lit (SpecLiteral.show t))]).
Proof. exact (scan_one_number t). Qed.
Print Assumptions C60_numbers_are_numbers.
Example C60_number_example : SpecLiteral.well_formed ex_number /\ ~ SpecLiteral.integral ex_number /\ lit (SpecLiteral.show ex_number) = lit "-2.50e+07".
Proof. exact ex_number_ok. Qed.

(** C60: the scanner itself never gives up: whatever the bytes, it delivers a list of tokens. *)
Theorem C60_every_text_scanned (s : text) : exists ts, scan s = Some ts.
Proof. exact (scan_total s). Qed.
Print Assumptions C60_every_text_scanned.

(** Finding: everything after a quotation mark that is never closed is dropped, without any error. *)
Theorem C60_open_string_dropped (t : text) : ~ In QUOTE t -> scan (QUOTE :: t) = Some [].
Proof. exact (scan_open_string t). Qed.
Print Assumptions C60_open_string_dropped.

(** Finding: a comment on the last line counts as a comment only if that line is terminated. *)
Theorem C60_last_comment_refuted :
  exists t, ~ In LF t /\ scan (lit "(exit)" ++ ";" :: t) <> scan (lit "(exit)" ++ ";" :: t ++ [LF]).
Proof. exact last_comment. Qed.
Print Assumptions C60_last_comment_refuted.

(** Finding: if lines end in carriage returns alone, a comment swallows the lines after it. *)
Theorem C60_carriage_return_refuted :
  exists t u, ~ In LF t /\ ~ In CR t /\ scan u <> Some [] /\ scan (";" :: t ++ CR :: u) = Some [].
Proof. exact cr_comment. Qed.
Print Assumptions C60_carriage_return_refuted.

(** Finding: the standard makes |x| and x the same symbol; here they are two. *)
Theorem C60_quoted_symbol_refuted : exists c w, symbol_ok c w /\ scan (BAR :: c :: w ++ [BAR]) <> scan (c :: w).
Proof. exact quoted_symbol. Qed.
Print Assumptions C60_quoted_symbol_refuted.

(** Finding: a backslash in a quoted symbol (which the standard forbids) is not an error: what stands before
    it is forgotten, so that different names become the same. *)
Theorem C60_backslash_refuted :
  exists t u, ~ In BAR t /\ ~ In BAR u /\ t <> u /\ scan (BAR :: t ++ [BAR]) = scan (BAR :: u ++ [BAR]) /\ scan (BAR :: t ++ [BAR]) <> Some [].
Proof. exact backslash. Qed.
Print Assumptions C60_backslash_refuted.

(** Finding: a sign or a point followed by digits is a number; the standard calls such a word a symbol. *)
Theorem C60_signed_name_refuted : exists c w, incl (c :: w) SYMBOLIC /\ ~ In c DIGITS /\ ~ In (c :: w) (map lit WORDS) /\ scan (c :: w) = Some [INT (c :: w)].
Proof. exact signed_name. Qed.
Print Assumptions C60_signed_name_refuted.
