(** CheckSatisfiability on quantified formulas (C44) *)
From Coq Require Import ZArith Reals Lra Lia List Bool Arith.
From Flocq Require Import Core.Core IEEE754.BinarySingleNaN.
From Verif Require Import Dbl DblProofs Syntax Sem SemProofs FormulaCons SpecForm Interval IntervalProofs IEval StdInterp MathConv Contr IbexConv Filter Theory Regular Wff Scoped IteElim Sat Context SpecCtx
  Forall SpecForall SpecQuant Api SpecApi SpecApiQ ExamplesForm ExamplesBox ExamplesEval ExamplesIte ExamplesContr ExamplesIcp ExamplesCtx ExamplesForall ExamplesQuant ExamplesDr.
Import ListNotations.
#[local] Opaque dZ mkd.

(** 4 <= x (0 <= x) and x <= 10 and for all y: y >= 2 or y <= -1 or x <= 3 *)
Definition aq1 : formula := FAnd [xc RGeq 4; xc RLeq 10; fa2].
Definition aq2 : formula := FAnd [xc RGeq 0; xc RLeq 10; fa2].
Definition q_TT (q : formula) (_ : dbl) := q_T q.
Definition q_PP (q : formula) (_ : dbl) := q_P q.
Lemma aq_runs : verdict (api_check nofold kplain brute (q_TT fa2) ibex_mid aq1 half 10 20) = Some false /\ verdict (api_check nofold kplain brute (q_TT fa2) ibex_mid aq2 half 10 20) = Some true /\
  verdict (api_check nofold kplain brute (q_PP fa2) ibex_mid aq1 half 10 20) = Some false.
Proof. Transparent dZ mkd. vm_compute. auto. Qed.
Lemma aq_ids : fresh_ids (fvF aq1) 10 /\ fresh_ids (fvF aq2) 10.
Proof.
  assert (A : forall f, (forall v, In v (fvF f) -> v = vx) -> fresh_ids (fvF f) 10).
  { intros f H. split; [intros v Hv; rewrite (H v Hv); cbn; lia|]. intros v w Hv Hw _. rewrite (H v Hv), (H w Hw). reflexivity. }
  split; apply A; cbn; intros v Hv; repeat destruct Hv as [<-|Hv]; auto; destruct Hv.
Qed.
Lemma aq_q : q_formula 10 aq1 /\ q_formula 10 aq2.
Proof.
  assert (W : forall z, (Z.abs z <= 2 ^ 53)%Z -> is_finite (dZ z) = true) by exact dZ_fin.
  assert (Q : wfF (fun v => vty v <> BOOLEAN) (fun v => vty v = BOOLEAN) (fun v => vid v < 10) fa2).
  { cbn [wfF fa2]. split; [split; [exists vy; cbn; lia|]|].
    + intros v [<-|[]]. cbn; lia.
    + cbn [bodyF body2 fold_right yc xc finE hasIteE fvE app]. assert (X1 : is_finite (dZ 2) = true) by (apply W; lia). assert (X2 : is_finite (dZ (-1)) = true) by (apply W; lia). assert (X3 : is_finite (dZ 3) = true) by (apply W; lia).
      split; [|split; [|split; [|exact I]]]; (split; [split; [exact I|assumption]|]); (split; [split; reflexivity|]); intros v [<-|[]];
        [right; left; reflexivity|right; left; reflexivity|left; discriminate]. }
  assert (X : forall o z, (Z.abs z <= 2 ^ 53)%Z -> wfF (fun v => vty v <> BOOLEAN) (fun v => vty v = BOOLEAN) (fun v => vid v < 10) (xc o z)).
  { intros o z Hz. cbn [xc wfF wfE]. split; [discriminate|apply W; exact Hz]. }
  split; (split; [apply X; lia|split; [apply X; lia|split; [exact Q|exact I]]]).
Qed.
From Verif Require Import ExamplesSmt2.
Lemma script1_runs_par : verdicts (run_ex ex_P calls1) = Some [false; true].
Proof. vm_compute. reflexivity. Qed.
