(** * C61: tokens of a .dr file *)
From Coq Require Import List Ascii String.
From Verif Require Import Scan SpecScan DrScan SpecDrScan DrScanProofs ExamplesDrScan.
Import ListNotations.
Local Open Scope char_scope.
Local Open Scope list_scope.

(** C61: every word, name, number and operator is read as the token it stands for. *)
Theorem C61_lexemes_read_back (items : list (list gap_item * dlexeme)) (last : list gap_item) :
  dr_file_ok items last -> dr_scan (show_dr items last) = Some (map (fun i => dtoken_of (snd i)) items).
Proof. exact (dr_scan_show items last). Qed.
Print Assumptions C61_lexemes_read_back.

(** C61: blanks, line breaks and comments can be changed freely. *)
Theorem C61_layout_irrelevant (items items' : list (list gap_item * dlexeme)) (last last' : list gap_item) :
  dr_file_ok items last -> dr_file_ok items' last' -> map snd items = map snd items' ->
  dr_scan (show_dr items last) = dr_scan (show_dr items' last').
Proof. exact (dr_layout items items' last last'). Qed.
Print Assumptions C61_layout_irrelevant.

Example C61_example : dr_file_ok ex_dr [Blank LF] /\ dr_scan (show_dr ex_dr [Blank LF]) = Some
  [TK "TK_VAR"; TK "TK_COLON"; TK "TK_LB"; TK "TK_MINUS"; DOUBLE (lit "1"); TK "TK_COMMA"; DOUBLE (lit "2.5e+3"); TK "TK_RB"; SYMBOL (lit "x_1"); TK "TK_SEMICOLON";
   TK "TK_CTR"; TK "TK_COLON"; TK "TK_SIN"; CHAR "("; SYMBOL (lit "x_1"); CHAR ")"; TK "TK_TIMES"; DOUBLE (lit "2"); TK "TK_LTE";
   TK "TK_MINUS"; DOUBLE (lit "007"); TK "TK_PLUS"; SYMBOL (lit "y"); TK "TK_SEMICOLON"].
Proof. exact (conj ex_dr_ok ex_dr_tokens). Qed.

(** C61: whatever the bytes, the scanner delivers a list of tokens. *)
Theorem C61_every_text_scanned (s : text) : exists ts, dr_scan s = Some ts.
Proof. exact (dr_scan_total s). Qed.
Print Assumptions C61_every_text_scanned.

(** Finding: a comment on the last line counts as a comment only if that line is terminated. *)
Theorem C61_last_comment_refuted :
  exists t, ~ In LF t /\ dr_scan (lit "ctr:" ++ "#" :: t) <> dr_scan (lit "ctr:" ++ "#" :: t ++ [LF]).
Proof. exact dr_last_comment. Qed.
Print Assumptions C61_last_comment_refuted.

(** Finding: if lines end in carriage returns alone, a comment swallows the lines after it. *)
Theorem C61_carriage_return_refuted :
  exists t u, ~ In LF t /\ ~ In CR t /\ dr_scan u <> Some [] /\ dr_scan ("#" :: t ++ CR :: u) = Some [].
Proof. exact dr_cr_comment. Qed.
Print Assumptions C61_carriage_return_refuted.
