(** A term printed and read back; cases that fail. *)
From Coq Require Import ZArith Reals Lra Lia List Bool Ascii String.
From Flocq Require Import Core.Core IEEE754.BinarySingleNaN.
From Verif Require Import Dbl DblProofs Interval Syntax MathConv Sem IEval ExprAlg StdInterp Literal Smt2 SpecSmt2 Prefix PrefixRead SpecPrefix PrefixReread PrefixProofs ExamplesForm ExamplesAlg ExamplesBox.
Import ListNotations.
Local Open Scope string_scope.

Definition vx := mkVar 0 CONTINUOUS. Definition vy := mkVar 1 CONTINUOUS. Definition vb0 := mkVar 2 BOOLEAN.
Definition nm (v : var) : string := if Nat.eqb (vid v) 0 then "x" else if Nat.eqb (vid v) 1 then "y" else "b".
Definition sy (s : string) : nat := if String.eqb s "x" then 0%nat else if String.eqb s "y" then 1%nat else 2%nat.
Definition tenthd := mkd 7205759403792794 (-56).
(** b or not (-3 + 2 x + x sin(y)^2 >= 0.1) *)
Definition fp : formula := FOr [FVar vb0; FNot (FRel RGeq (EAdd (dZ (-3)) [(EVar vx, dZ 2); (EMul done [(EVar vx, EConst done); (EUn USin (EVar vy), EConst (dZ 2))], done)]) (EConst tenthd))].
Definition fp_text : string := "(or b (not (>= (+ (- 3) (* 2 x) (* x (^ (sin y) 2))) 0.1000000000000000056)))".
Lemma dZ_writable z : (Z.abs z <= 2 ^ 53)%Z -> writable (dZ z).
Proof.
  intros B. destruct (MathConvProofs.dZ_exact z B) as [F V]. unfold writable. rewrite V, <- abs_IZR. split; [exact F|]. split; [|left; apply IZR_le; exact B].
  destruct (Z.eq_dec z 0) as [-> |N]; [left; reflexivity|]. right. apply Rle_trans with 1%R; [apply (bpow_le radix2 (-1020) 0); lia|]. apply (IZR_le 1). lia.
Qed.
Lemma cmp_R (a b : dbl) : is_finite a = true -> is_finite b = true -> deq a b = true -> B2R a = B2R b.
Proof. intros Fa Fb H. unfold deq in H. rewrite Beqb_correct in H by assumption. revert H. unfold Req_bool. destruct (Rcompare_spec (B2R a) (B2R b)); intros X; congruence. Qed.
Lemma tenthd_R : B2R tenthd = (7205759403792794 * bpow radix2 (-56))%R.
Proof. transitivity (B2R (@B754_finite prec64 emax64 false 7205759403792794 (-56) eq_refl)); [apply cmp_R; vm_compute; reflexivity|reflexivity]. Qed.
Lemma tenthd_writable : writable tenthd.
Proof.
  assert (F : is_finite tenthd = true) by (vm_compute; reflexivity). assert (B : (0 < bpow radix2 (-56))%R) by apply bpow_gt_0. assert (C : (bpow radix2 (-56) * IZR (2 ^ 56) = 1)%R) by (change (IZR (2 ^ 56)) with (bpow radix2 56); rewrite <- bpow_plus; reflexivity).
  change (2 ^ 56)%Z with 72057594037927936%Z in C. split; [exact F|]. rewrite tenthd_R, Rabs_pos_eq by lra. split; [right|left]; [apply Rle_trans with (bpow radix2 (-56)); [apply bpow_le; lia|lra]|]. change (IZR (2 ^ 53)) with 9007199254740992%R. lra.
Qed.
Lemma fp_printable_C (C : dbl -> Prop) : C (dZ (-3)) -> C (dZ 2) -> C done -> C tenthd -> printableF C (fun v => In v [vx; vy; vb0]) fp.
Proof.
  intros H1 H2 H3 H4. assert (V : forall v, In v [vx; vy; vb0] -> (fun v => In v [vx; vy; vb0]) v) by auto. set (K := fun v => In v [vx; vy; vb0]) in *.
  assert (Kx : K vx) by (left; reflexivity). assert (Ky : K vy) by (right; left; reflexivity). assert (Kb : K vb0) by (right; right; left; reflexivity). clearbody K.
  unfold fp. cbn [printableF printableE fold_right]. split; [discriminate|]. split; [split; [exact Kb|reflexivity]|]. split; [|exact I]. split; [|exact H4]. split; [exact H1|]. split; [right; discriminate|].
  split; [split; [split; [exact Kx|discriminate]|exact H2]|]. split; [|exact I]. split; [|exact H3]. split; [exact H3|]. split; [right; cbn; lia|].
  split; [split; [split; [exact Kx|discriminate]|exact H3]|]. split; [|exact I]. split; [split; [exact Ky|discriminate]|exact H2].
Qed.
Lemma fp_printable : printableF writable (fun v => In v [vx; vy; vb0]) fp.
Proof. apply fp_printable_C; [apply dZ_writable; cbn; lia|apply dZ_writable; cbn; lia|exact (dZ_writable 1 ltac:(cbn; lia))|exact tenthd_writable]. Qed.
Lemma fp_prints : printF nm fp = Some fp_text.
Proof. assert (H : match printF nm fp with Some s => String.eqb s fp_text | None => false end = true) by (vm_compute; reflexivity). destruct (printF nm fp) as [s|]; [|discriminate H]. apply String.eqb_eq in H. congruence. Qed.
Lemma prefix_meets : mid_ok ibex_mid /\ printableF writable (fun v => In v [vx; vy; vb0]) fp /\ printF nm fp = Some fp_text /\ (forall v, In v [vx; vy; vb0] -> is_symbol (nm v) = true) /\
  (forall rho, exists E, forall v, In v [vx; vy; vb0] -> E (sy (nm v)) = varval v rho).
Proof.
  split; [exact ibex_mid_ok|]. split; [exact fp_printable|]. split; [exact fp_prints|]. split.
  - intros v [<-|[<-|[<-|[]]]]; vm_compute; reflexivity.
  - intros rho. exists (fun n => if Nat.eqb n 0 then varval vx rho else if Nat.eqb n 1 then varval vy rho else varval vb0 rho). intros v [<-|[<-|[<-|[]]]]; reflexivity.
Qed.

(** ** Cases that fail *)
Definition big := mkd 4503599627370497 1.
Lemma big_R : is_finite big = true /\ B2R big = 9007199254740994%R.
Proof.
  split; [vm_compute; reflexivity|]. transitivity (B2R (@B754_finite prec64 emax64 false 4503599627370497 1 eq_refl)); [apply cmp_R; vm_compute; reflexivity|unfold B2R, F2R; cbn; lra].
Qed.
Lemma big_fails : forall under mid sym name, is_finite big = true /\ B2R big = 9007199254740994%R /\ printE name (EConst big) = Some "9007199254740994" /\ read_term under mid sym "9007199254740994" = None.
Proof.
  intros under mid sym name. destruct big_R as [F V]. split; [exact F|]. split; [exact V|]. split; [|vm_compute; reflexivity].
  cbn [printE]. assert (H : String.eqb (print_constant big) "9007199254740994" = true) by (vm_compute; reflexivity). apply String.eqb_eq in H. rewrite H. reflexivity.
Qed.
Definition above1 : dbl := Bsucc done.
Lemma decimal_fails : forall name, printE name (EReal done above1 false) = Some "1".
Proof. intros name. reflexivity. Qed.
Lemma one_reads under mid sym : read_term under mid sym "1" = Some (SNum (dZ 1)).
Proof. reflexivity. Qed.
Lemma decimal_differs : exists rc : dbl -> dbl -> R, rc_ok (std (fun _ _ => 0%R) rc) /\ forall under mid sym name rho E FN, exists s t, printE name (EReal done above1 false) = Some s /\ read_term under mid sym s = Some t /\
  settle t = t /\ den (std (fun _ _ => 0%R) rc) FN t E <> VR (evalE (std (fun _ _ => 0%R) rc) (EReal done above1 false) rho).
Proof.
  exists (fun _ ub => B2R ub). split.
  - intros lb ub F1 F2 L. cbn [i_rc std]. rewrite (finite_d2e _ F2). split; [|cbn; lra]. apply dle_true in L. rewrite (finite_d2e _ F2) in L. exact L.
  - intros under mid sym name rho E FN. exists "1", (SNum (dZ 1)). split; [apply decimal_fails|]. split; [apply one_reads|]. split; [reflexivity|]. cbn [den evalE i_rc std]. intros H.
    assert (X : B2R (dZ 1) = B2R above1) by congruence. assert (L : dlt (dZ 1) above1 = true) by (vm_compute; reflexivity).
    assert (F2 : is_finite above1 = true) by (vm_compute; reflexivity). assert (F1 : is_finite (dZ 1) = true) by (vm_compute; reflexivity).
    unfold dlt in L. rewrite Bltb_correct in L by assumption. rewrite X in L. rewrite Rlt_bool_false in L by lra. discriminate L.
Qed.
Lemma names_fail : forall under mid sym, printE (fun _ => "sin") (EVar vx) = Some "sin" /\ read_term under mid sym "sin" = None /\ printE (fun _ => "x 1") (EVar vx) = Some "x 1" /\ read_term under mid sym "x 1" = None.
Proof. intros under mid sym. repeat split. Qed.
