(** A small .dr file *)
From Coq Require Import List Bool Ascii String NArith.
From Verif Require Import Scan SpecScan DrScan SpecDrScan DrScanProofs.
Import ListNotations.
Local Open Scope char_scope.
Local Open Scope list_scope.

(** var:[-1,2.5e+3]x_1; # bound
    ctr:sin(x_1)*2<=-007+y; *)
Definition ex_dr : list (list gap_item * dlexeme) :=
  [([], DWord "var"); ([], DOp ":"); ([], DOp "["); ([], DOp "-"); ([], DNum (lit "1") [] []); ([], DOp ","); ([], DNum (lit "2") (lit ".5") (lit "e+3")); ([], DOp "]"); ([], DId "x" (lit "_1")); ([], DOp ";");
   ([Blank " "; Comment (lit " bound")], DWord "ctr"); ([], DOp ":"); ([], DWord "sin"); ([], DOp "("); ([], DId "x" (lit "_1")); ([], DOp ")"); ([], DOp "*"); ([], DNum (lit "2") [] []); ([], DOp "<=");
   ([], DOp "-"); ([], DNum (lit "007") [] []); ([], DOp "+"); ([], DId "y" []); ([], DOp ";")].
Ltac notin := cbn; let H := fresh in intros H; repeat (destruct H as [H|H]; [discriminate H|]); destruct H.
Ltac incl_tac := let x := fresh in let H := fresh in intros x H; cbn in H; repeat (destruct H as [<-|H]; [cbn; tauto|]); destruct H.
Ltac no_merge := let k := fresh in let E := fresh in let X := fresh in intros (k & E & [[X ?]|[X ?]]); [destruct X as [X|X]| ]; (discriminate E || (rewrite X in E; discriminate E) || discriminate).
Lemma ex_dr_ok : dr_file_ok ex_dr [Blank LF].
Proof.
  unfold dr_file_ok, ex_dr. split; [|split].
  - repeat (apply Forall_cons; [split; cbn [fst snd]|]); try apply Forall_nil.
    all: try (repeat (apply Forall_cons; [cbn [gap_item_ok]; (cbn; tauto) || notin|]); apply Forall_nil).
    all: cbn [dlexeme_ok].
    all: try (unfold DR_WORDS, DR_OPS; cbn [In]; tauto).
    all: try (split; [cbn; tauto|split; [incl_tac|notin]]).
    all: try (split; [discriminate|split; [incl_tac|split; [left; reflexivity|left; reflexivity]]]).
    split; [discriminate|split; [incl_tac|split]].
    + right. exists (lit "5"). split; [reflexivity|]. split; [discriminate|incl_tac].
    + right. exists "e", (lit "+"), (lit "3"). split; [reflexivity|]. split; [cbn; tauto|]. split; [cbn; tauto|]. split; [incl_tac|discriminate].
  - apply Forall_cons; [cbn; tauto|apply Forall_nil].
  - cbn [dr_separated]. repeat (split; [intros H; first [discriminate H|split; [unfold is_op; first [left; eexists; reflexivity|right; eexists; reflexivity]|no_merge]]|]). exact I.
Qed.
Lemma ex_dr_tokens : dr_scan (show_dr ex_dr [Blank LF]) = Some
  [TK "TK_VAR"; TK "TK_COLON"; TK "TK_LB"; TK "TK_MINUS"; DOUBLE (lit "1"); TK "TK_COMMA"; DOUBLE (lit "2.5e+3"); TK "TK_RB"; SYMBOL (lit "x_1"); TK "TK_SEMICOLON";
   TK "TK_CTR"; TK "TK_COLON"; TK "TK_SIN"; CHAR "("; SYMBOL (lit "x_1"); CHAR ")"; TK "TK_TIMES"; DOUBLE (lit "2"); TK "TK_LTE";
   TK "TK_MINUS"; DOUBLE (lit "007"); TK "TK_PLUS"; SYMBOL (lit "y"); TK "TK_SEMICOLON"].
Proof. rewrite (dr_scan_show _ _ ex_dr_ok). vm_compute. reflexivity. Qed.
Lemma dr_last_comment : exists t, ~ In LF t /\ dr_scan (lit "ctr:" ++ "#" :: t) <> dr_scan (lit "ctr:" ++ "#" :: t ++ [LF]).
Proof. exists (lit "end"). split; [notin|]. vm_compute. discriminate. Qed.
Lemma dr_cr_comment : exists t u, ~ In LF t /\ ~ In CR t /\ dr_scan u <> Some [] /\ dr_scan ("#" :: t ++ CR :: u) = Some [].
Proof. exists (lit "end"), (lit "ctr: x < 0;" ++ [LF]). split; [notin|]. split; [notin|]. split; [vm_compute; discriminate|vm_compute; reflexivity]. Qed.
