(** A script with a universal quantifier, solved through contexts of contractors and evaluators. *)
From Coq Require Import ZArith Reals Lra Lia List Bool Arith.
From Flocq Require Import Core.Core IEEE754.BinarySingleNaN.
From Verif Require Import Dbl DblProofs Syntax Sem SemProofs FormulaCons SpecForm Interval IntervalProofs IEval IEvalProofs StdInterp MathConv MathConvProofs Scoped Context ExprAlg SpecAlg SpecIte
  Contr IbexConv Filter Theory Regular RegularProofs Wff IteElim Sat SpecCtx SpecModel SpecQuant Smt2 SpecSmt2 Smt2Sound
  ExamplesForm ExamplesBox ExamplesEval ExamplesIte ExamplesAlg ExamplesContr ExamplesIcp ExamplesCtx ExamplesSmt2 ExamplesForall ExamplesQuant.
Import ListNotations.
Local Notation R := Rdefinitions.R.
#[local] Opaque dZ mkd.

(** Names: x 0, y 1.
<<
(declare-fun x () Real [0,10]) (assert (forall ((y Real)) (or (>= y 2) (<= y -1) (<= x 3)))) (check-sat)
(assert (>= x 4)) (check-sat)
>> *)
Definition sall : sterm := SForall [(1, SoReal, (ninf, pinf))] (SOr [SRel RGeq (SSym 1) (num 2); SRel RLeq (SSym 1) (num (-1)); SRel RLeq (SSym 0) (num 3)]).
Definition script10 : list scmd := [KDeclare 0 SoReal (Some (dZ 0, dZ 10)); KAssert sall; KCheck 20; KAssert (SRel RGeq (SSym 0) (num 4)); KCheck 20].
Definition alq (i : nat) : nat := if Nat.ltb i 2 then i else 12 + i.
Lemma alq_mono i j : (i < j)%nat -> (alq i < alq j)%nat.
Proof. unfold alq. intros H. destruct (Nat.ltb_spec i 2), (Nat.ltb_spec j 2); lia. Qed.
Definition qcalls : list cop := [ONew vx; ODeclareDom vx (dZ 0) (dZ 10) true; ONew vy; OAssert fa2; OCheck 20; OAssert (xc RGeq 4); OCheck 20].
Lemma script10_poses fpow : poses (script fpow 20 alq script10 drv0) qcalls = true.
Proof. vm_compute. reflexivity. Qed.
(** The context starts with the identifier 0. *)
Definition run_ex0 T ops := cx_run nofold kplain brute T ibex_mid half ops (cx_init 0).
Lemma qcalls_runs : verdicts (run_ex0 (q_T fa2) qcalls) = Some [true; false] /\ verdicts (run_ex0 (q_P fa2) qcalls) = Some [true; false].
Proof. split; vm_compute; reflexivity. Qed.
Lemma qcalls_adm : admissible_q Mstd stdD nofold kplain 0 True qcalls [] (p_empty, []).
Proof.
  assert (W : forall z, (Z.abs z <= 2 ^ 53)%Z -> is_finite (dZ z) = true) by exact dZ_fin.
  unfold qcalls. cbn [admissible_q op_ok_q p_step news_step fst snd].
  split; [exact I|]. split; [|split; [exact I|split; [|split; [exact I|split; [|split; exact I]]]]].
  - split; [right; left; reflexivity|]. split; [intros _; left; reflexivity|apply dom_ok_of; lia].
  - split; [|apply plain_ite]. cbn [wfF fa2]. split; [split; [exists vy; split; [exact I|right; left; reflexivity]|]|].
    + intros v [<-|[]]. split; [exact I|right; left; reflexivity].
    + cbn [bodyF body2 fold_right yc xc finE hasIteE fvE app]. assert (X1 : is_finite (dZ 2) = true) by (apply W; lia). assert (X2 : is_finite (dZ (-1)) = true) by (apply W; lia). assert (X3 : is_finite (dZ 3) = true) by (apply W; lia).
      split; [|split; [|split; [|exact I]]]; (split; [split; [exact I|assumption]|]); (split; [split; reflexivity|]); intros v [<-|[]];
        [right; left; reflexivity|right; left; reflexivity|left; split; [cbn; auto|discriminate]].
  - split; [|apply plain_ite]. cbn [xc wfF wfE]. split; [split; [cbn; auto|discriminate]|apply W; lia].
Qed.
(** x = 3 *)
Definition vals10 (i : nat) : value := VR 3.
Lemma script10_names : names_ok script10 ([], [], []).
Proof. cbn. repeat split; try (intros x H; cbn in *; tauto); try lia; intuition discriminate. Qed.
Lemma script10_plain : Forall plain_cmd script10.
Proof. repeat (constructor; try exact I). exists (VR 0). cbn. repeat split; cbn; auto. Qed.
Lemma script10_sorted : s_sorted vals10 script10 0.
Proof. cbn. repeat split. Qed.
Lemma script10_zdefd uf rc : z_defd (std uf rc) stdD vals10 script10 (s_init, []).
Proof. cbn. repeat split; intros; discriminate. Qed.
Lemma xc_off (o' : relop) z rho : (Z.abs z <= 2 ^ 53)%Z -> rho vx = 3%R -> off_gaps o' (EVar vx) (EConst (dZ z)) (rho vx) (B2R (dZ z)).
Proof.
  intros Hz Hx _. split; [|intros c []]. intros c [<-|[]]. rewrite Hx. apply (gap_dbl _ (dZ 3)); [now apply dZ_fin|apply dZ_nan; lia|]. exact (dZ_ext 3 ltac:(lia)).
Qed.
Lemma script10_regular uf rc : regular_at uf rc vals10 qcalls.
Proof.
  intros rho f [_ Hr] Hf _ _. assert (Hx : rho vx = 3%R) by (specialize (Hr 0%nat vx eq_refl); change (VR (rho vx) = VR 3) in Hr; congruence).
  unfold qcalls in Hf. cbn [In] in Hf. destruct Hf as [Hf|[Hf|[Hf|[Hf|[Hf|[Hf|[Hf|[]]]]]]]]; try discriminate Hf; injection Hf as <-.
  - unfold regular, fa2. cbn [regF]. intros rho' Ag _. assert (Hx' : rho' vx = 3%R) by (rewrite <- Hx; apply (Ag vx); intros [C|[]]; discriminate C).
    assert (N : forall o' z, relax [vy] off_gaps o' (EVar vy) (EConst (dZ z)) (evalE (std uf rc) (EVar vy) rho') (evalE (std uf rc) (EConst (dZ z)) rho')).
    { intros o' z C. exfalso. apply (C vy); left; reflexivity. }
    cbn [body2 regF fold_right yc xc regE]. split; [split; [split; exact I|apply N]|]. split; [split; [split; exact I|apply N]|]. split; [|exact I]. split; [split; exact I|].
    intros _ o'. apply (xc_off o' 3 rho'); [lia|exact Hx'].
  - unfold regular. cbn [xc regF regE]. split; [split; exact I|]. apply (xc_off _ 4 rho); [lia|exact Hx].
Qed.
Lemma script10_meets uf rc fpow : (forall i j, i < j -> alq i < alq j)%nat /\
  exists s t, script fpow 20 alq script10 drv0 = (Val s, t) /\ rev (d_ops s) = qcalls /\ Forall (exact (std uf rc)) t /\ Forall kept (d_notes s) /\
  Forall plain_cmd script10 /\ s_sorted vals10 script10 0 /\ names_ok script10 ([], [], []) /\ z_defd (std uf rc) stdD vals10 script10 (s_init, []) /\ regular_at uf rc vals10 qcalls.
Proof.
  split; [exact alq_mono|]. destruct (poses_ok uf rc _ _ (script10_poses fpow)) as (s & t & E & H1 & H2 & H3). exists s, t.
  exact (conj E (conj H1 (conj H2 (conj H3 (conj script10_plain (conj script10_sorted (conj script10_names (conj (script10_zdefd uf rc) (script10_regular uf rc))))))))).
Qed.
