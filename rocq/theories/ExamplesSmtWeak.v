(** A script with a delta-sat check (C02) *)
From Coq Require Import ZArith Reals Lra Lia List Bool Arith.
From Flocq Require Import Core.Core IEEE754.BinarySingleNaN.
From Verif Require Import Dbl DblProofs Syntax Sem SemProofs FormulaCons SpecForm Interval IntervalProofs IEval IEvalProofs StdInterp MathConv MathConvProofs Scoped Context ExprAlg SpecAlg SpecIte
  Contr IbexConv Filter Theory Regular Wff IteElim Sat SpecCtx SpecModel SpecWeak Smt2 SpecSmt2 SpecSmtWeak
  ExamplesForm ExamplesBox ExamplesEval ExamplesIte ExamplesAlg ExamplesContr ExamplesIcp ExamplesCtx ExamplesModel ExamplesDelta ExamplesSmt2.
Import ListNotations.
Local Notation R := Rdefinitions.R.

(** Names: x 0, n 1, b 2.
<<
(declare-fun x () Real [0,4]) (declare-fun n () Int [-3,8]) (declare-fun b () Bool)
(assert (or (>= (+ x n) 8) b)) (assert (not b))
(push 1) (assert (<= (+ x n) 7)) (check-sat) (pop 1) (check-sat)
>> *)
Definition t_or : sterm := SOr [SRel RGeq (SAri APlus (SSym 0) [SSym 1]) (num 8); SSym 2].
Definition script11 : list scmd :=
  [KDeclare 0 SoReal (Some (dZ 0, dZ 4)); KDeclare 1 SoInt (Some (dZ (-3), dZ 8)); KDeclare 2 SoBool None;
   KAssert t_or; KAssert (SNot (SSym 2));
   KPush 1; KAssert (SRel RLeq (SAri APlus (SSym 0) [SSym 1]) (num 7)); KCheck 20; KPop 1; KCheck 20].
Definition calls11 : list cop :=
  [ONew X1; ODeclareDom X1 (dZ 0) (dZ 4) true; ONew N1; ODeclareDom N1 (dZ (-3)) (dZ 8) true; ONew B1; ODeclare B1 true;
   OAssert (FOr [FRel RGeq XN1 (EConst (dZ 8)); FVar B1]); OAssert (FNot (FVar B1)); OPush; OAssert L7; OCheck 20; OPop; OCheck 20].
Lemma script11_poses fpow : poses (script fpow 20 alloc1 script11 drv0) calls11 = true.
Proof. vm_compute. reflexivity. Qed.
Lemma script11_runs : verdicts (run_ex ex_T calls11) = Some [false; true] /\ verdicts (run_ex ex_P calls11) = Some [false; true].
Proof. split; vm_compute; reflexivity. Qed.
Lemma calls11_adm : admissible Mstd stdD nofold kplain 10 calls11 [] (p_empty, []).
Proof.
  assert (W : forall z, (Z.abs z <= 2 ^ 53)%Z -> is_finite (dZ z) = true) by exact dZ_fin.
  unfold calls11, L7, XN1. cbn [admissible op_ok p_step news_step fst snd admissible_q op_ok_q].
  repeat match goal with
  | |- _ /\ _ => split
  | |- True => exact I
  | |- known _ _ _ => right; cbn [In]; auto 10
  | |- dom_ok _ _ _ => apply dom_ok_of; lia
  | |- declared _ _ -> redomain_ok _ _ _ _ => intros _; left; reflexivity
  | |- ite_exact _ _ _ _ _ => apply plain_ite
  | |- wfF _ _ _ _ => cbn [wfF wfE fold_right]
  | |- declared _ _ => cbn; auto 10
  | |- is_finite dzero = true => reflexivity
  | |- is_finite (dZ _) = true => apply W; lia
  | |- vty _ = _ => reflexivity
  | |- vty _ <> _ => discriminate
  end.
Qed.
Lemma calls11_delta : delta_ops nofold calls11 (p_empty, []).
Proof. unfold calls11, L7, XN1. cbn [delta_ops delta_op p_step fst snd]. repeat split; try apply unf_any; try discriminate. Qed.
(** At the second check the first two assertions are in force. *)
Lemma script11_force : map (map snd) (in_force script11 [] [] []) =
  [[SRel RLeq (SAri APlus (SSym 0) [SSym 1]) (num 7); SNot (SSym 2); t_or]; [SNot (SSym 2); t_or]].
Proof. reflexivity. Qed.
Lemma script11_meets uf rc fpow : exists s t, script fpow 20 alloc1 script11 drv0 = (Val s, t) /\ rev (d_ops s) = calls11 /\ Forall (exact (std uf rc)) t /\ Forall kept (d_notes s) /\ Forall plain_cmd script11 /\
  s_defd (std uf rc) stdD vals1 script11 s_init /\ s_sorted vals1 script11 0 /\ exists rho, reads vals1 calls11 rho.
Proof.
  destruct (poses_ok uf rc _ _ (script11_poses fpow)) as (s & t & E & H1 & H2 & H3). exists s, t. split; [exact E|]. split; [exact H1|]. split; [exact H2|]. split; [exact H3|].
  split; [repeat constructor|]. split; [cbn; repeat split; intros; discriminate|]. split; [cbn; repeat split; exists 4%Z; reflexivity|].
  destruct reads9 as (rho & W & H). exists rho. split; [exact W|]. intros i v Hi. apply H. exact Hi.
Qed.

(** (declare-fun x () Real [0,1]) (declare-fun y () Real [2,1]) (check-sat): the box is tested for emptiness in its first dimension only (util/box.cc:115) *)
Definition script12 : list scmd := [KDeclare 0 SoReal (Some (dZ 0, dZ 1)); KDeclare 1 SoReal (Some (dZ 2, dZ 1)); KCheck 20].
Definition W1 : var := mkVar 11 CONTINUOUS.
Definition calls12 : list cop := [ONew X1; ODeclareDom X1 (dZ 0) (dZ 1) true; ONew W1; ODeclareDom W1 (dZ 2) (dZ 1) true; OCheck 20].
Lemma script12_poses fpow : poses (script fpow 20 alloc1 script12 drv0) calls12 = true.
Proof. vm_compute. reflexivity. Qed.
Lemma script12_runs : verdicts (run_ex ex_T calls12) = Some [true].
Proof. vm_compute. reflexivity. Qed.
Lemma empty_domain uf rc fpow : exists s t c m p, script fpow 20 alloc1 script12 drv0 = (Val s, t) /\ Forall (exact (std uf rc)) t /\ run_ex ex_T (rev (d_ops s)) = Some (c, [Some m]) /\
  problems (rev (d_ops s)) (p_empty, []) = [p] /\ forall rho : env, ~ forall v d, In (v, d) (p_doms p) -> d (rho v).
Proof.
  destruct (poses_ok uf rc _ _ (script12_poses fpow)) as (s & t & E & H1 & H2 & _). destruct (answers_of _ _ _ script12_runs) as (c & a & Er & Va).
  destruct a as [|[m|] [|? ?]]; try discriminate Va. eexists s, t, c, m, _. split; [exact E|]. split; [exact H2|]. rewrite H1. split; [exact Er|]. split; [reflexivity|].
  intros rho H. assert (B : between (dZ 2) (dZ 1) (rho W1)) by (apply H; right; left; reflexivity). unfold between in B. rewrite !dZ_ext in B by lia. cbn in B. lra.
Qed.
