(** A file with comments, strings and numbers; texts that are not read as the standard says *)
From Coq Require Import List Bool Ascii String NArith.
From Verif Require Import Scan SpecScan ScanProofs.
From Verif Require SpecLiteral.
Import ListNotations.
Local Open Scope char_scope.
Local Open Scope list_scope.

(** (set-info :source |a paper|) ; two
    (assert(<= x_1 -2.50e+07)) *)
Definition ex_number : SpecLiteral.numeral :=
  {| SpecLiteral.n_sign := SpecLiteral.Minus; SpecLiteral.n_int := [SpecLiteral.D2]; SpecLiteral.n_frac := Some [SpecLiteral.D5; SpecLiteral.D0];
     SpecLiteral.n_exp := Some (false, SpecLiteral.Plus, [SpecLiteral.D0; SpecLiteral.D7]) |}.
Definition ex_ten : SpecLiteral.numeral :=
  {| SpecLiteral.n_sign := SpecLiteral.NoSign; SpecLiteral.n_int := [SpecLiteral.D1; SpecLiteral.D0]; SpecLiteral.n_frac := None; SpecLiteral.n_exp := None |}.
Lemma ex_ten_ok : SpecLiteral.well_formed ex_ten.
Proof. split; [discriminate|exact I]. Qed.
Lemma ex_number_ok : SpecLiteral.well_formed ex_number /\ ~ SpecLiteral.integral ex_number /\ lit (SpecLiteral.show ex_number) = lit "-2.50e+07".
Proof. split; [split; [exact I|discriminate]|]. split; [intros (H & _); discriminate|reflexivity]. Qed.
Definition ex_items : list (list gap_item * lexeme) :=
  [([], Open); ([], Reserved "set-info"); ([Blank " "], Attribute "s" (lit "ource")); ([Blank " "], Quoted (lit "a paper")); ([], Close);
   ([Blank " "; Comment (lit " two"); Blank CR; Blank LF], Open); ([], Reserved "assert"); ([], Open); ([], Reserved "<=");
   ([Blank TAB], Symbol "x" (lit "_1")); ([Comment []], Number ex_number); ([], Close); ([], Close);
   ([], Open); ([], Reserved "echo"); ([Blank " "], Str [QUOTE; ";"]); ([Blank " "], Symbol "-" (lit "x")); ([Blank " "], Number ex_ten); ([Blank LF], HexFloat (lit "-") "x" (lit "1") (Some (lit "8")) (lit "p-3")); ([], Close)].
Ltac incl_tac := let x := fresh in let H := fresh in intros x H; cbn in H; repeat (destruct H as [<-|H]; [cbn; tauto|]); destruct H.
Ltac notin_tac := let H := fresh in cbn; intros H; repeat (destruct H as [H|H]; [discriminate H|]); destruct H.
Ltac sym_tac := split; [incl_tac|split; [notin_tac|split; [notin_tac|let H := fresh in intros H; apply number_starts in H; discriminate H]]].
Lemma ex_ok : file_ok ex_items [Comment (lit "end")].
Proof.
  unfold file_ok, ex_items. split; [|split].
  - repeat (apply Forall_cons; [split; cbn [fst snd]|]); try apply Forall_nil.
    all: try (repeat (apply Forall_cons; [cbn [gap_item_ok]; (cbn; tauto) || (cbn; intros H; repeat (destruct H as [H|H]; [discriminate H|]); destruct H)|]); apply Forall_nil).
    all: cbn [lexeme_ok]; try exact I.
    all: try (unfold WORDS; cbn; tauto).
    + split; [incl_tac|]. cbn. intros H. repeat (destruct H as [H|H]; [discriminate H|]). destruct H.
    + split; cbn; intros H; repeat (destruct H as [H|H]; [discriminate H|]); destruct H.
    + sym_tac.
    + exact (proj1 ex_number_ok).
    + sym_tac.
    + exact ex_ten_ok.
    + split; [cbn; tauto|]. split; [cbn; tauto|]. split; [incl_tac|]. split; [split; [incl_tac|left; discriminate]|]. right. exists "p", (lit "-"), (lit "3").
      split; [reflexivity|]. split; [cbn; tauto|]. split; [cbn; tauto|]. split; [incl_tac|discriminate].
  - apply Forall_cons; [|apply Forall_nil]. cbn; intros H; repeat (destruct H as [H|H]; [discriminate H|]); destruct H.
  - cbn [separated]. unfold paren. repeat (split; [intros H; first [discriminate H|tauto]|]). exact I.
Qed.
Lemma ex_tokens : scan (show ex_items [Comment (lit "end")]) = Some
  [CHAR "("; TK "TK_SET_INFO"; KEYWORD (lit ":source"); SYMBOL (lit "|a paper|"); CHAR ")";
   CHAR "("; TK "TK_ASSERT"; CHAR "("; TK "TK_LTE"; SYMBOL (lit "x_1"); DOUBLE (lit "-2.50e+07"); CHAR ")"; CHAR ")";
   CHAR "("; TK "TK_ECHO"; STRING [QUOTE; QUOTE; QUOTE; ";"; QUOTE]; SYMBOL (lit "-x"); INT (lit "10"); HEXFLOAT (lit "-0x1.8p-3"); CHAR ")"].
Proof. rewrite (scan_show _ _ ex_ok). vm_compute. reflexivity. Qed.

Lemma last_comment : exists t, ~ In LF t /\ scan (lit "(exit)" ++ ";" :: t) <> scan (lit "(exit)" ++ ";" :: t ++ [LF]).
Proof. exists (lit "end"). split; [cbn; intros H; repeat (destruct H as [H|H]; [discriminate H|]); destruct H|]. vm_compute. discriminate. Qed.
Lemma cr_comment : exists t u, ~ In LF t /\ ~ In CR t /\ scan u <> Some [] /\ scan (";" :: t ++ CR :: u) = Some [].
Proof. exists (lit "end"), (lit "(exit)" ++ [LF]). split; [|split; [|split; [vm_compute; discriminate|vm_compute; reflexivity]]];
  cbn; intros H; repeat (destruct H as [H|H]; [discriminate H|]); destruct H. Qed.
Lemma quoted_symbol : exists c w, symbol_ok c w /\ scan (BAR :: c :: w ++ [BAR]) <> scan (c :: w).
Proof.
  exists "x", []. split; [sym_tac|vm_compute; discriminate].
Qed.
Lemma backslash : exists t u, ~ In BAR t /\ ~ In BAR u /\ t <> u /\ scan (BAR :: t ++ [BAR]) = scan (BAR :: u ++ [BAR]) /\ scan (BAR :: t ++ [BAR]) <> Some [].
Proof.
  exists (lit "a" ++ BSL :: lit "x"), (lit "b" ++ BSL :: lit "x"). split; [|split; [|split; [discriminate|split; [reflexivity|vm_compute; discriminate]]]];
  cbn; intros H; repeat (destruct H as [H|H]; [discriminate H|]); destruct H.
Qed.
Lemma signed_name : exists c w, incl (c :: w) SYMBOLIC /\ ~ In c DIGITS /\ ~ In (c :: w) (map lit WORDS) /\ scan (c :: w) = Some [INT (c :: w)].
Proof.
  exists "-", ["1"]. split; [incl_tac|]. split; [cbn; intros H; repeat (destruct H as [H|H]; [discriminate H|]); destruct H|]. split; [cbn; intros H; repeat (destruct H as [H|H]; [discriminate H|]); destruct H|].
  vm_compute. reflexivity.
Qed.
