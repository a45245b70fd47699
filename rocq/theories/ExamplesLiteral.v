(** Literals read; cases that fail. *)
From Coq Require Import ZArith Reals Lra Lia List Bool Ascii String.
From Flocq Require Import Core.Core IEEE754.BinarySingleNaN.
From Verif Require Import Dbl DblProofs Interval Syntax Sem Literal SpecLiteral LiteralProofs LiteralTop ExamplesForm ExamplesAlg ExamplesBox.
Import ListNotations.

(** 0.1, -2.5e3, 0.100000000000000001, +1.5, 9007199254740993 *)
Definition tenth := {| n_sign := NoSign; n_int := [D0]; n_frac := Some [D1]; n_exp := None |}.
Definition m2500 := {| n_sign := Minus; n_int := [D2]; n_frac := Some [D5]; n_exp := Some (false, NoSign, [D3]) |}.
Definition tenth' := {| n_sign := NoSign; n_int := [D0]; n_frac := Some [D1; D0; D0; D0; D0; D0; D0; D0; D0; D0; D0; D0; D0; D0; D0; D0; D0; D1]; n_exp := None |}.
Definition plus15 := {| n_sign := Plus; n_int := [D1]; n_frac := Some [D5]; n_exp := None |}.
Definition bigint := {| n_sign := NoSign; n_int := [D9; D0; D0; D7; D1; D9; D9; D2; D5; D4; D7; D4; D0; D9; D9; D3]; n_frac := None; n_exp := None |}.
Definition tenth_e : expr := EReal (Bpred (mkd 7205759403792794 (-56))) (mkd 7205759403792794 (-56)) false.
Definition readsb (o : option expr) (e : expr) : bool := match o with Some x => expr_eqb x e | None => false end.
Lemma readsb_ok o e : readsb o e = true -> o = Some e.
Proof. destruct o as [x|]; [|discriminate]. intros H. apply expr_eqb_eq in H. congruence. Qed.
Lemma pm1 : powerRZ 10 (-1) = (/ 10)%R.
Proof. transitivity (/ powerRZ 10 1)%R; [exact (powerRZ_neg' 10 1)|]. change (powerRZ 10 1) with (10 * 1)%R. now rewrite Rmult_1_r. Qed.
Lemma pm18 : powerRZ 10 (-18) = (/ 1000000000000000000)%R.
Proof. transitivity (/ powerRZ 10 18)%R; [exact (powerRZ_neg' 10 18)|]. rewrite (pow10 18) by lia. reflexivity. Qed.
Lemma literal_meets : forall under, well_formed tenth /\ show tenth = "0.1"%string /\ value tenth = (/ 10)%R /\ read_number under ibex_mid (show tenth) = Some tenth_e /\
  well_formed m2500 /\ show m2500 = "-2.5e3"%string /\ value m2500 = (-2500)%R /\ read_number under ibex_mid (show m2500) = Some (kk (-2500)).
Proof.
  intros under. split; [split; [exact I|exact I]|]. split; [reflexivity|]. split; [change (1 * powerRZ 10 (-1) = / 10)%R; rewrite pm1; lra|]. split; [apply readsb_ok; vm_compute; reflexivity|].
  split; [split; [exact I|discriminate]|]. split; [reflexivity|]. split; [change (-25 * (10 * (10 * 1)) = -2500)%R; lra|]. apply readsb_ok; vm_compute; reflexivity.
Qed.

(** Two literals with different values are read as the same term. *)
Lemma literals_confused : forall under, well_formed tenth /\ well_formed tenth' /\ read_number under ibex_mid (show tenth) = Some tenth_e /\ read_number under ibex_mid (show tenth') = Some tenth_e /\ (value tenth < value tenth')%R /\
  forall M rho, ~ (holds M (FRel REq ex tenth_e) rho /\ holds M (FNot (FRel REq ex tenth_e)) rho).
Proof.
  intros under. split; [split; exact I|]. split; [split; exact I|]. split; [apply readsb_ok; vm_compute; reflexivity|]. split; [apply readsb_ok; vm_compute; reflexivity|]. split.
  - change (1 * powerRZ 10 (-1) < 100000000000000001 * powerRZ 10 (-18))%R. rewrite pm1, pm18. lra.
  - intros M rho [A B]. exact (B A).
Qed.
Lemma plus_rejected : forall under mid, well_formed plus15 /\ show plus15 = "+1.5"%string /\ value plus15 = (3 / 2)%R /\ read_number under mid (show plus15) = None.
Proof.
  intros under mid. split; [split; exact I|]. split; [reflexivity|]. split; [|reflexivity].
  change (15 * powerRZ 10 (-1) = 3 / 2)%R; rewrite pm1; lra.
Qed.
Lemma bigint_rejected : forall under mid, well_formed bigint /\ value bigint = 9007199254740993%R /\ read_number under mid (show bigint) = None.
Proof.
  intros under mid. split; [split; [discriminate|exact I]|]. split; [|vm_compute; reflexivity].
  change (9007199254740993 * 1 = 9007199254740993)%R. lra.
Qed.
Lemma accepted_meet : is_int (show tenth) = false /\ (bpow radix2 (-1021) <= Rabs (value tenth) <= B2R dmax)%R /\ n_sign tenth <> Plus.
Proof.
  split; [reflexivity|]. split; [|discriminate]. destruct (literal_meets (fun _ _ => false)) as (_ & _ & -> & _). rewrite Rabs_pos_eq by lra. split.
  - apply Rle_trans with (bpow radix2 (-4)); [apply bpow_le; lia|]. cbn. lra.
  - apply Rle_trans with (B2R (dZ 1)); [rewrite (zof_val (dZ 1) 1) by (vm_compute; reflexivity); lra|]. apply Rle_trans with (Rabs (B2R (dZ 1))); [apply Rle_abs|]. assert (X : dle (dZ 1) dmax = true) by (vm_compute; reflexivity). apply dle_true in X.
    change (B2R (dZ 1) <= B2R dmax)%R in X. rewrite (zof_val (dZ 1) 1) in * by (vm_compute; reflexivity). rewrite Rabs_R1. exact X.
Qed.
