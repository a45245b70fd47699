(** Outputs of scripts: a normal one, and some that mislead. *)
From Coq Require Import ZArith Reals Lra Lia List Bool.
From Flocq Require Import IEEE754.BinarySingleNaN.
From Verif Require Import Dbl DblProofs Syntax Sem SemProofs FormulaCons Interval IEval StdInterp ExprAlg Theory IteElim Sat Context SpecCtx Smt2 Smt2Out SpecOut Smt2OutProofs
  ExamplesForm ExamplesBox ExamplesEval ExamplesContr ExamplesIcp ExamplesIte ExamplesAlg ExamplesCtx ExamplesSmt2.
Import ListNotations.
Local Notation R := Rdefinitions.R.

Definition out_ex (precision : dbl) (qs : list ocmd) := o_run nofold kplain brute ex_T ibex_mid precision lin false true qs (cx_init 10).
Definition lines_ok (r : option (ctx * list (out line))) (chk : list (out line) -> bool) : bool := match r with Some (_, l) => chk l | None => false end.
Lemma lines_ok_ex r chk : lines_ok r chk = true -> exists c l, r = Some (c, l) /\ chk l = true.
Proof. destruct r as [[c l]|]; cbn; [|discriminate]. intros H. exists c, l. auto. Qed.

(** script1 with get-model after each check and get-value at the end *)
Definition out1 : list ocmd := map CCall (firstn 18 calls1) ++ [CGetModel] ++ map CCall (skipn 18 calls1) ++ [CGetModel; CGetValue [TmE XN1; TmF (FVar B1)]].
Definition chk1 (l : list (out line)) : bool :=
  match l with [Val LUnsat; Val LError; Val (LSatDelta (Some [_; _; _])); Val (LModel [_; _; (_, ShFalse)]); Val (LValues [(_, ShRat _); (_, ShFalse)])] => true
             | [Val LUnsat; Val LError; Val (LSatDelta (Some [_; _; _])); Val (LModel [_; _; (_, ShFalse)]); Val (LValues [(_, ShRats _ _); (_, ShFalse)])] => true | _ => false end.
Lemma out1_chk : lines_ok (out_ex half out1) chk1 = true.
Proof. vm_compute. reflexivity. Qed.
Lemma out1_calls : calls_of out1 = calls1. Proof. reflexivity. Qed.
Lemma out1_runs : exists c l d m w, out_ex half out1 = Some (c, [Val LUnsat; Val LError; Val (LSatDelta (Some d)); Val (LModel m); Val (LValues w)]) /\ length d = 3 /\ length m = 3 /\ length w = 2 /\ l = calls_of out1.
Proof.
  destruct (lines_ok_ex _ _ out1_chk) as (c & l & E & H). exists c, (calls_of out1).
  unfold chk1 in H. repeat (match goal with H : context [match ?x with _ => _ end] |- _ => is_var x; destruct x; try discriminate H end).
  all: rewrite E; do 3 eexists; repeat split; reflexivity.
Qed.
(** get-model before any check *)
Lemma model_before_check : exists c, out_ex half [CGetModel] = Some (c, [Val (LModel [])]).
Proof. eexists. reflexivity. Qed.
(** get-value after unsat: false for a Boolean *)
Definition out2 : list ocmd := map CCall [ONew bx; ODeclare bx true; OAssert (FVar bx); OAssert (FNot (FVar bx)); OCheck 20] ++ [CGetValue [TmF (FVar bx)]].
Definition chk2 (l : list (out line)) : bool := match l with [Val LUnsat; Val (LValues [(TmF (FVar v), ShFalse)])] => var_eqb v bx | _ => false end.
Lemma out2_chk : lines_ok (out_ex half out2) chk2 = true.
Proof. vm_compute. reflexivity. Qed.
Lemma value_after_unsat : exists c, out_ex half out2 = Some (c, [Val LUnsat; Val (LValues [(TmF (FVar bx), ShFalse)])]).
Proof.
  destruct (lines_ok_ex _ _ out2_chk) as (c & l & E & H). exists c.
  unfold chk2 in H. repeat (match goal with H : context [match ?x with _ => _ end] |- _ => is_var x; destruct x; try discriminate H end).
  apply var_eqb_eq in H. now subst.
Qed.
(** ... and undefined behaviour for a Real, whose bounds are not numbers *)
Definition out3 : list ocmd := map CCall [ONew rx; ODeclare rx true; OAssert FFalse; OCheck 20] ++ [CGetValue [TmE (EVar rx)]].
Definition chk3 (l : list (out line)) : bool := match l with [Val LUnsat; Ub] => true | _ => false end.
Lemma out3_chk : lines_ok (out_ex half out3) chk3 = true.
Proof. vm_compute. reflexivity. Qed.
Lemma value_ub : exists c, out_ex half out3 = Some (c, [Val LUnsat; Ub]).
Proof.
  destruct (lines_ok_ex _ _ out3_chk) as (c & l & E & H). exists c.
  unfold chk3 in H. repeat (match goal with H : context [match ?x with _ => _ end] |- _ => is_var x; destruct x; try discriminate H end). exact E.
Qed.
(** The model of an Int above the range of int *)
Definition ib := mkVar 10 INTEGER.
Definition out4 : list ocmd := map CCall [ONew ib; ODeclareDom ib (dZ 3000000000) (dZ 3000000000) true; OCheck 20].
Definition chk4 (l : list (out line)) : bool := match l with [Ub] => true | _ => false end.
Lemma out4_chk : lines_ok (out_ex half out4) chk4 = true.
Proof. vm_compute. reflexivity. Qed.
Lemma int_model_ub : exists c, out_ex half out4 = Some (c, [Ub]).
Proof.
  destruct (lines_ok_ex _ _ out4_chk) as (c & l & E & H). exists c.
  unfold chk4 in H. repeat (match goal with H : context [match ?x with _ => _ end] |- _ => is_var x; destruct x; try discriminate H end). exact E.
Qed.
(** With precision 1 a Boolean that no assertion decides stays undecided: get-model prints no value for it, get-value prints false. *)
Definition out5 : list ocmd := map CCall [ONew bx; ODeclare bx true; OCheck 20] ++ [CGetModel; CGetValue [TmF (FVar bx)]].
Definition chk5 (l : list (out line)) : bool :=
  match l with [Val (LSatDelta (Some [(v, ShUnassigned)])); Val (LModel [(w, ShNone)]); Val (LValues [(TmF (FVar u), ShFalse)])] => var_eqb v bx && (var_eqb w bx && var_eqb u bx) | _ => false end.
Lemma out5_chk : lines_ok (out_ex (dZ 1) out5) chk5 = true.
Proof. vm_compute. reflexivity. Qed.
Lemma undecided : exists c, out_ex (dZ 1) out5 = Some (c, [Val (LSatDelta (Some [(bx, ShUnassigned)])); Val (LModel [(bx, ShNone)]); Val (LValues [(TmF (FVar bx), ShFalse)])]).
Proof.
  destruct (lines_ok_ex _ _ out5_chk) as (c & l & E & H). exists c.
  unfold chk5 in H. repeat (match goal with H : context [match ?x with _ => _ end] |- _ => is_var x; destruct x; try discriminate H end).
  rewrite !andb_true_iff in H. destruct H as (H1 & H2 & H3). apply var_eqb_eq in H1, H2, H3. now subst.
Qed.
