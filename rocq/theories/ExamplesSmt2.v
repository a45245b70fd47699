(** Scripts that meet the hypotheses of the theorems on the SMT-LIB front end, and scripts that go wrong. *)
From Coq Require Import ZArith Reals Lra Lia List Bool ClassicalDescription.
From Flocq Require Import Core.Core IEEE754.BinarySingleNaN.
From Verif Require Import Dbl DblProofs Syntax Sem SemProofs FormulaCons FormulaConsProofs Interval IEval StdInterp MathConv MathConvProofs
  Order ExprAlg SpecAlg PowProofs ExprAlgProofs AlgClosed CmpSound Subst SubstProofs AlgTop Theory Regular Wff IteElim SpecIte Sat Context SpecCtx CtxStruct Smt2 SpecSmt2 SmtOcc Smt2Proofs Smt2Top
  ExamplesForm ExamplesBox ExamplesEval ExamplesContr ExamplesIcp ExamplesIte ExamplesAlg ExamplesCtx.
Import ListNotations.
Local Notation R := Rdefinitions.R.

(** ** Checking a run *)
Definition dbl_same (a b : dbl) : bool := expr_eqb (EConst a) (EConst b).
Lemma dbl_same_eq a b : dbl_same a b = true -> a = b.
Proof. unfold dbl_same. intros H. apply expr_eqb_eq in H. now injection H. Qed.
Definition cop_eqb (a b : cop) : bool :=
  match a, b with
  | ONew v, ONew w => var_eqb v w
  | ODeclare v m, ODeclare w m' => var_eqb v w && eqb m m'
  | ODeclareDom v l u m, ODeclareDom w l' u' m' => var_eqb v w && (dbl_same l l' && (dbl_same u u' && eqb m m'))
  | OAssert f, OAssert g => formula_eqb f g
  | OPush, OPush | OPop, OPop => true
  | OCheck n, OCheck k => Nat.eqb n k
  | _, _ => false
  end.
Lemma cop_eqb_eq a b : cop_eqb a b = true -> a = b.
Proof.
  destruct a, b; cbn [cop_eqb]; intros H; try discriminate; rewrite ?andb_true_iff in H; auto.
  - apply var_eqb_eq in H. congruence.
  - destruct H as [H1 H2]. apply var_eqb_eq in H1. apply eqb_prop in H2. congruence.
  - destruct H as (H1 & H2 & H3 & H4). apply var_eqb_eq in H1. apply dbl_same_eq in H2, H3. apply eqb_prop in H4. congruence.
  - apply formula_eqb_eq in H. congruence.
  - apply Nat.eqb_eq in H. congruence.
Qed.
Fixpoint cops_eqb (a b : list cop) : bool := match a, b with [], [] => true | x :: a', y :: b' => cop_eqb x y && cops_eqb a' b' | _, _ => false end.
Lemma cops_eqb_eq a : forall b, cops_eqb a b = true -> a = b.
Proof. induction a as [|x a IH]; intros [|y b] H; try discriminate; auto. cbn [cops_eqb] in H. apply andb_true_iff in H. destruct H as [H1 H2]. f_equal; [now apply cop_eqb_eq|auto]. Qed.
Definition keptb (x : list var * formula * formula) : bool :=
  match x with (vs, dom, body) => forallb (fun v => negb (mem_var v (fvF body))) vs || forallb (fun v => mem_var v (fvF body)) (fvF dom) end.
Lemma keptb_ok x : keptb x = true -> kept x.
Proof.
  destruct x as [[vs dom] body]. cbn [keptb kept]. intros H. apply orb_true_iff in H. destruct H as [H|H]; rewrite forallb_forall in H; [left|right].
  - intros v Hv X. specialize (H v Hv). apply negb_true_iff in H. apply mem_var_In in X. congruence.
  - intros v Hv. apply mem_var_In, H, Hv.
Qed.
(** The script makes the calls [ops], with exact arithmetic and no lost bound. *)
Definition poses (c : comp drv) (ops : list cop) : bool :=
  match c with (Val s, t) => cops_eqb (rev (d_ops s)) ops && (forallb stepb t && forallb keptb (d_notes s)) | _ => false end.
Lemma poses_ok uf rc c ops : poses c ops = true -> exists s t, c = (Val s, t) /\ rev (d_ops s) = ops /\ Forall (exact (std uf rc)) t /\ Forall kept (d_notes s).
Proof.
  destruct c as [[s| | |] t]; cbn [poses]; try discriminate. intros H. apply andb_true_iff in H. destruct H as [H1 H]. apply andb_true_iff in H. destruct H as [H2 H3].
  exists s, t. split; [reflexivity|]. split; [now apply cops_eqb_eq|]. split; [now apply stepsb_exact|]. apply Forall_forall. intros x Hx. rewrite forallb_forall in H3. apply keptb_ok, H3, Hx.
Qed.
(** Without the condition on the bounds. *)
Definition posesW (c : comp drv) (ops : list cop) : bool := match c with (Val s, t) => cops_eqb (rev (d_ops s)) ops && forallb stepb t | _ => false end.
Lemma posesW_ok uf rc c ops : posesW c ops = true -> exists s t, c = (Val s, t) /\ rev (d_ops s) = ops /\ Forall (exact (std uf rc)) t.
Proof.
  destruct c as [[s| | |] t]; cbn [posesW]; try discriminate. intros H. apply andb_true_iff in H. destruct H as [H1 H2].
  exists s, t. split; [reflexivity|]. split; [now apply cops_eqb_eq|]. now apply stepsb_exact.
Qed.
Definition elabs_well (c : comp (term * drv)) : bool := match c with (Val (tm, s), t) => forallb stepb t && forallb keptb (d_notes s) | _ => false end.
Lemma elabs_well_ok uf rc c : elabs_well c = true -> exists tm s t, c = (Val (tm, s), t) /\ Forall (exact (std uf rc)) t /\ Forall kept (d_notes s).
Proof.
  destruct c as [[[tm s]| | |] t]; cbn [elabs_well]; try discriminate. intros H. apply andb_true_iff in H. destruct H as [H2 H3].
  exists tm, s, t. split; [reflexivity|]. split; [now apply stepsb_exact|]. apply Forall_forall. intros x Hx. rewrite forallb_forall in H3. apply keptb_ok, H3, Hx.
Qed.

Definition pinf : dbl := B754_infinity false.
Definition ninf : dbl := B754_infinity true.
Definition num (z : Z) : sterm := SNum (dZ z).

(** ** A script with definitions, let, push and pop.  Names: x 0, n 1, b 2, f 3, parameters 4 and 5, y 6.
<<
(declare-fun x () Real [0,4]) (declare-fun n () Int [-3,8]) (declare-fun b () Bool)
(define-fun f ((p Real) (q Int)) Bool (>= (+ p q) 8))
(assert (or (f x n) b)) (assert (not b))
(push 1) (assert (let ((y (<= (+ x n) 7))) y)) (check-sat) (pop 1) (check-sat)
>> *)
Definition script1 : list scmd :=
  [KDeclare 0 SoReal (Some (dZ 0, dZ 4)); KDeclare 1 SoInt (Some (dZ (-3), dZ 8)); KDeclare 2 SoBool None;
   KDefine 3 [(4, SoReal); (5, SoInt)] SoBool (SRel RGeq (SAri APlus (SSym 4) [SSym 5]) (num 8));
   KAssert (SOr [SApp 3 [SSym 0; SSym 1]; SSym 2]); KAssert (SNot (SSym 2));
   KPush 1; KAssert (SLet [(6, SRel RLeq (SAri APlus (SSym 0) [SSym 1]) (num 7))] (SSym 6)); KCheck 20; KPop 1; KCheck 20].
(** The identifiers of the context's own variables lie between those of q and y. *)
Definition alloc1 (i : nat) : nat := if Nat.ltb i 5 then 10 + i else 12 + i.
Lemma alloc1_mono i j : (i < j)%nat -> (alloc1 i < alloc1 j)%nat.
Proof. unfold alloc1. intros H. destruct (Nat.ltb_spec i 5), (Nat.ltb_spec j 5); lia. Qed.
Definition X1 := mkVar 10 CONTINUOUS.
Definition N1 := mkVar 11 INTEGER.
Definition B1 := mkVar 12 BOOLEAN.
Definition P1 := mkVar 13 CONTINUOUS.
Definition Q1 := mkVar 14 INTEGER.
Definition Y1 := mkVar 17 BOOLEAN.
Definition XN1 := EAdd (dZ 0) [(EVar X1, dZ 1); (EVar N1, dZ 1)].
Definition L7 := FRel RLeq XN1 (EConst (dZ 7)).
Definition calls1 : list cop :=
  [ONew X1; ODeclareDom X1 (dZ 0) (dZ 4) true; ONew N1; ODeclareDom N1 (dZ (-3)) (dZ 8) true; ONew B1; ODeclare B1 true;
   ONew P1; ODeclare P1 false; ONew Q1; ODeclare Q1 false;
   OAssert (FOr [FRel RGeq XN1 (EConst (dZ 8)); FVar B1]); OAssert (FNot (FVar B1)); OPush;
   ONew Y1; ODeclare Y1 false; OAssert (FOr [FAnd [FVar Y1; L7]; FAnd [FNot (FVar Y1); FNot L7]]); OAssert (FVar Y1); OCheck 20; OPop; OCheck 20].
Lemma script1_poses fpow : poses (script fpow 20 alloc1 script1 drv0) calls1 = true.
Proof. vm_compute. reflexivity. Qed.
Lemma script1_runs : verdicts (run_ex ex_T calls1) = Some [false; true].
Proof. vm_compute. reflexivity. Qed.
Lemma calls1_adm : admissible Mstd stdD nofold kplain 10 calls1 [] (p_empty, []).
Proof.
  assert (W : forall z, (Z.abs z <= 2 ^ 53)%Z -> is_finite (dZ z) = true) by exact dZ_fin.
  unfold calls1, L7, XN1. cbn [admissible op_ok p_step news_step fst snd admissible_q op_ok_q].
  repeat match goal with
  | |- _ /\ _ => split
  | |- True => exact I
  | |- known _ _ _ => right; cbn [In]; auto 10
  | |- dom_ok _ _ _ => apply dom_ok_of; lia
  | |- declared _ _ -> redomain_ok _ _ _ _ => intros _; left; reflexivity
  | |- ite_exact _ _ _ _ _ => apply plain_ite
  | |- wfF _ _ _ _ => cbn [wfF wfE fold_right]
  | |- declared _ _ => cbn; auto 10
  | |- is_finite dzero = true => reflexivity
  | |- is_finite (dZ _) = true => apply W; lia
  | |- vty _ = _ => reflexivity
  | |- vty _ <> _ => discriminate
  end.
Qed.
(** x = 4, n = 4, b false *)
Definition vals1 (i : nat) : value := match i with 0 | 1 => VR 4 | _ => VB false end%nat.
Lemma script1_names : names_ok script1 ([], [], []).
Proof.
  cbn. repeat split; try (intros x H; cbn in *; tauto); try lia; intuition discriminate.
Qed.
Lemma script1_plain : Forall plain_cmd script1.
Proof. repeat constructor. Qed.
Lemma script1_sorted : s_sorted vals1 script1 0.
Proof. cbn. repeat split. exists 4%Z. reflexivity. Qed.
Lemma script1_defd uf rc : s_defd (std uf rc) stdD vals1 script1 s_init.
Proof. cbn. repeat split; intros; discriminate. Qed.
Lemma script1_zdefd uf rc : z_defd (std uf rc) stdD vals1 script1 (s_init, []).
Proof. cbn. repeat split; intros; discriminate. Qed.
Lemma script1_meets uf rc fpow : (forall i j, i < j -> alloc1 i < alloc1 j)%nat /\
  exists s t, script fpow 20 alloc1 script1 drv0 = (Val s, t) /\ rev (d_ops s) = calls1 /\ Forall (exact (std uf rc)) t /\ Forall kept (d_notes s) /\
  Forall plain_cmd script1 /\ s_defd (std uf rc) stdD vals1 script1 s_init /\ s_sorted vals1 script1 0 /\ names_ok script1 ([], [], []) /\ z_defd (std uf rc) stdD vals1 script1 (s_init, []).
Proof.
  split; [exact alloc1_mono|]. destruct (poses_ok uf rc _ _ (script1_poses fpow)) as (s & t & E & H1 & H2 & H3). exists s, t.
  refine (conj E (conj H1 (conj H2 (conj H3 (conj script1_plain (conj (script1_defd uf rc) (conj script1_sorted (conj script1_names (script1_zdefd uf rc))))))))).
Qed.

(** ** Scripts that go wrong *)
Definition al (i : nat) : nat := 10 + i.
Lemma al_mono i j : (i < j)%nat -> (al i < al j)%nat. Proof. unfold al. lia. Qed.
Definition on_reals (r : R) : env := fun v => match vty v with CONTINUOUS => r | _ => 0%R end.
Lemma on_reals_ok r : well_typed (on_reals r).
Proof. intros v. unfold on_reals. destruct (vty v); cbn; auto. exists 0%Z. reflexivity. Qed.
Definition rx := mkVar 10 CONTINUOUS.
Definition ry := mkVar 11 CONTINUOUS.
Lemma decide_f (P : Prop) : ~ P -> decide P = false. Proof. unfold decide. destruct (excluded_middle_informative P); tauto. Qed.
Lemma decide_t (P : Prop) : P -> decide P = true. Proof. unfold decide. destruct (excluded_middle_informative P); tauto. Qed.
(** (assert (forall ((x Real) (y Real [0,1])) (>= x 1))): y stays free in the bounds and may leave them *)
Definition script2 : list scmd := [KAssert (SForall [(0, SoReal, (ninf, pinf)); (1, SoReal, (dZ 0, dZ 1))] (SRel RGeq (SSym 0) (num 1))); KCheck 20].
Definition form2 : formula :=
  FForall [rx] (FOr [FNot (FAnd [FRel RLeq (EConst (dZ 0)) (EVar ry); FRel RLeq (EVar ry) (EConst (dZ 1))]); FRel RGeq (EVar rx) (EConst (dZ 1))]).
Lemma script2_poses fpow : posesW (script fpow 20 al script2 drv0) [ONew rx; ONew ry; OAssert form2; OCheck 20] = true.
Proof. vm_compute. reflexivity. Qed.
Lemma lost_bounds uf rc fpow : exists s t p, script fpow 20 al script2 drv0 = (Val s, t) /\ Forall (exact (std uf rc)) t /\ problems (rev (d_ops s)) (p_empty, []) = [p] /\
  satisfiable (std uf rc) stdD p /\ forall V, ~ facts_of (std uf rc) stdD V script2.
Proof.
  destruct (posesW_ok uf rc _ _ (script2_poses fpow)) as (s & t & E & H1 & H2). eexists s, t, _. split; [exact E|]. split; [exact H2|]. rewrite H1. split; [reflexivity|]. split.
  - exists (on_reals 2). split; [apply on_reals_ok|]. split; [intros v d []|]. intros f [<-|[]]. unfold form2. split.
    + cbn [defF]. intros rho _ _. cbn. tauto.
    + cbn [holds]. intros rho Ha _. cbn [fold_right]. left. cbn [holds relR evalE fold_right]. rewrite !dZ_R by lia.
      assert (Hy : rho ry = 2%R). { rewrite (Ha ry); [reflexivity|]. intros [X|[]]; discriminate. } rewrite Hy. lra.
  - intros V (F & EF & HF). cbn [script2 s_checks s_step s_init ss_facts] in EF. injection EF as <-. specialize (HF _ (or_introl eq_refl)).
    cbn [den] in HF. rewrite decide_f in HF; [discriminate|]. intros A. cbn [all_values fst snd] in A.
    specialize (A (VR 0)). cbn [in_binder of_sort bounded fst snd] in A. assert (in_binder (0%nat, SoReal, (ninf, pinf)) (VR 0)) as H0. { split; [exact I|]. cbn. unfold between, ninf, pinf. cbn. auto. }
    specialize (A H0 (VR 0)). assert (in_binder (1%nat, SoReal, (dZ 0, dZ 1)) (VR 0)) as H3. { split; [exact I|]. cbn [bounded fst snd]. unfold between. rewrite !dZ_ext by lia. cbn. lra. }
    specialize (A H3). change (VB (decide (relR RGeq 0 (B2R (dZ 1)))) = VB true) in A. rewrite decide_f in A; [discriminate|]. cbn [relR]. rewrite dZ_R by lia. lra.
Qed.
(** (assert (forall ((y Real [1,0])) false)): vacuously true, asserted as false *)
Definition script3 : list scmd := [KAssert (SForall [(0, SoReal, (dZ 1, dZ 0))] SFalse); KCheck 20].
Lemma script3_poses fpow : posesW (script fpow 20 al script3 drv0) [ONew rx; OAssert FFalse; OCheck 20] = true.
Proof. vm_compute. reflexivity. Qed.
Lemma empty_bounds uf rc fpow : exists s t p, script fpow 20 al script3 drv0 = (Val s, t) /\ Forall (exact (std uf rc)) t /\ problems (rev (d_ops s)) (p_empty, []) = [p] /\
  ~ satisfiable (std uf rc) stdD p /\ forall V, facts_of (std uf rc) stdD V script3.
Proof.
  destruct (posesW_ok uf rc _ _ (script3_poses fpow)) as (s & t & E & H1 & H2). eexists s, t, _. split; [exact E|]. split; [exact H2|]. rewrite H1. split; [reflexivity|]. split.
  - intros (rho & _ & _ & H). destruct (H FFalse) as [_ X]; [left; auto|exact X].
  - intros V. eexists. split; [reflexivity|]. intros P [<-|[]]. cbn [den]. rewrite decide_t; [reflexivity|]. cbn [all_values fst snd]. intros v [S1 Bd]. exfalso.
    destruct v as [r|b]; [|exact S1]. cbn [bounded fst snd] in Bd. unfold between in Bd. rewrite !dZ_ext in Bd by lia. cbn in Bd. lra.
Qed.
Definition bx := mkVar 10 BOOLEAN.
Definition by_ := mkVar 11 BOOLEAN.
Definition def_yx := FOr [FAnd [FVar by_; FVar bx]; FAnd [FNot (FVar by_); FNot (FVar bx)]].
Definition all_true : env := fun v => match vty v with BOOLEAN => 1%R | _ => 0%R end.
Lemma all_true_ok : well_typed all_true.
Proof. intros v. unfold all_true. destruct (vty v); cbn; auto. exists 0%Z. reflexivity. Qed.
(** (assert (forall ((x Bool)) (let ((y x)) y))): false, but satisfiable for the solver *)
Definition script4 : list scmd := [KAssert (SForall [(0, SoBool, (ninf, pinf))] (SLet [(1, SSym 0)] (SSym 1))); KCheck 20].
Lemma script4_poses fpow : posesW (script fpow 20 al script4 drv0) [ONew bx; ONew by_; ODeclare by_ false; OAssert def_yx; OAssert (FVar by_); OCheck 20] = true.
Proof. vm_compute. reflexivity. Qed.
Lemma let_in_forall uf rc fpow : exists s t p, script fpow 20 al script4 drv0 = (Val s, t) /\ Forall (exact (std uf rc)) t /\ problems (rev (d_ops s)) (p_empty, []) = [p] /\
  satisfiable (std uf rc) stdD p /\ forall V, ~ facts_of (std uf rc) stdD V script4.
Proof.
  destruct (posesW_ok uf rc _ _ (script4_poses fpow)) as (s & t & E & H1 & H2). eexists s, t, _. split; [exact E|]. split; [exact H2|]. rewrite H1. split; [reflexivity|]. split.
  - exists all_true. split; [exact all_true_ok|]. split; [intros v d [X|[]]; injection X as <- <-; cbn; lra|]. intros f [<-|[<-|[]]]; cbn; auto 10.
  - intros V (F & EF & HF). cbn [script4 s_checks s_step s_init ss_facts] in EF. injection EF as <-. specialize (HF _ (or_introl eq_refl)).
    cbn [den] in HF. rewrite decide_f in HF; [discriminate|]. intros A. cbn [all_values fst snd] in A.
    specialize (A (VB false)). assert (in_binder (0%nat, SoBool, (ninf, pinf)) (VB false)) as H0 by (split; exact I). specialize (A H0). cbn in A. discriminate.
Qed.
(** (define-fun f ((x Bool)) Bool (let ((y x)) y)): all calls share y *)
Definition fun5 : scmd := KDefine 5 [(0, SoBool)] SoBool (SLet [(1, SSym 0)] (SSym 1)).
Definition script5 : list scmd := [fun5; KAssert (SApp 5 [STrue]); KAssert (SNot (SApp 5 [SFalse])); KCheck 20].
Lemma script5_poses fpow : posesW (script fpow 20 al script5 drv0) [ONew bx; ODeclare bx false; ONew by_; ODeclare by_ false; OAssert def_yx; OAssert (FVar by_); OAssert (FNot (FVar by_)); OCheck 20] = true.
Proof. vm_compute. reflexivity. Qed.
Lemma let_in_fun uf rc fpow : exists s t p, script fpow 20 al script5 drv0 = (Val s, t) /\ Forall (exact (std uf rc)) t /\ problems (rev (d_ops s)) (p_empty, []) = [p] /\
  ~ satisfiable (std uf rc) stdD p /\ forall V, facts_of (std uf rc) stdD V script5.
Proof.
  destruct (posesW_ok uf rc _ _ (script5_poses fpow)) as (s & t & E & H1 & H2). eexists s, t, _. split; [exact E|]. split; [exact H2|]. rewrite H1. split; [reflexivity|]. split.
  - intros (rho & _ & _ & H). destruct (H (FVar by_)) as [_ X]; [cbn; auto|]. destruct (H (FNot (FVar by_))) as [_ Y]; [cbn; auto|]. exact (Y X).
  - intros V. eexists. split; [reflexivity|]. intros P [<-|[<-|[]]]; reflexivity.
Qed.
Definition script6 : list scmd := [fun5; KAssert (SApp 5 [SFalse]); KCheck 20].
Lemma script6_poses fpow : posesW (script fpow 20 al script6 drv0) [ONew bx; ODeclare bx false; ONew by_; ODeclare by_ false; OAssert def_yx; OAssert (FVar by_); OCheck 20] = true.
Proof. vm_compute. reflexivity. Qed.
Lemma let_in_fun_sat uf rc fpow : exists s t p, script fpow 20 al script6 drv0 = (Val s, t) /\ Forall (exact (std uf rc)) t /\ problems (rev (d_ops s)) (p_empty, []) = [p] /\
  satisfiable (std uf rc) stdD p /\ forall V, ~ facts_of (std uf rc) stdD V script6.
Proof.
  destruct (posesW_ok uf rc _ _ (script6_poses fpow)) as (s & t & E & H1 & H2). eexists s, t, _. split; [exact E|]. split; [exact H2|]. rewrite H1. split; [reflexivity|]. split.
  - exists all_true. split; [exact all_true_ok|]. split; [intros v d [X|[X|[]]]; injection X as <- <-; cbn; lra|]. intros f [<-|[<-|[]]]; cbn; auto 10.
  - intros V (F & EF & HF). cbn [script6 s_checks s_step s_init ss_facts fun5] in EF. injection EF as <-. specialize (HF _ (or_introl eq_refl)). discriminate HF.
Qed.
(** A name declared in a popped scope is still accepted, and the constraint on it empties the box of another variable. *)
Definition script7 : list scmd := [KDeclare 0 SoReal (Some (dZ 0, dZ 10)); KPush 1; KDeclare 1 SoReal None; KPop 1; KAssert (SRel RLeq (SSym 1) (num (-5))); KCheck 20].
Definition calls7 : list cop := [ONew rx; ODeclareDom rx (dZ 0) (dZ 10) true; OPush; ONew ry; ODeclare ry true; OPop; OAssert (FRel RLeq (EVar ry) (EConst (dZ (-5)))); OCheck 20].
Lemma script7_poses fpow : poses (script fpow 20 al script7 drv0) calls7 = true.
Proof. vm_compute. reflexivity. Qed.
Lemma script7_runs : verdicts (run_ex ex_T calls7) = Some [false].
Proof. vm_compute. reflexivity. Qed.
Lemma popped_name uf rc fpow : (~ names_ok script7 ([], [], [])) /\
  exists s t c p, script fpow 20 al script7 drv0 = (Val s, t) /\ Forall (exact (std uf rc)) t /\ run_ex ex_T (rev (d_ops s)) = Some (c, [None]) /\
  problems (rev (d_ops s)) (p_empty, []) = [p] /\ satisfiable (std uf rc) stdD p /\ forall V, V 0%nat = VR 3 -> V 1%nat = VR (-6) -> facts_of (std uf rc) stdD V script7.
Proof.
  split. { cbn. intros (_ & _ & _ & H & _). assert (X : In 1%nat [0%nat]) by (apply H; left; auto). destruct X as [X|[]]. discriminate. }
  destruct (poses_ok uf rc _ _ (script7_poses fpow)) as (s & t & E & H1 & H2 & _). destruct (answers_of _ _ _ script7_runs) as (c & a & Er & Va).
  destruct a as [|[m|] [|? ?]]; try discriminate Va. eexists s, t, c, _. split; [exact E|]. split; [exact H2|]. rewrite H1. split; [exact Er|]. split; [reflexivity|]. split.
  - exists (fun v => if var_eqb v ry then (-6)%R else on_reals 3 v). split.
    { intros v. destruct (var_eqb v ry) eqn:Ev; [apply var_eqb_eq in Ev; subst v; exact I|apply on_reals_ok]. }
    split. { intros v d [X|[]]. change ((rx, between (dZ 0) (dZ 10)) = (v, d)) in X. apply pair_equal_spec in X. destruct X as [<- <-]. change (between (dZ 0) (dZ 10) 3). unfold between. rewrite !dZ_ext by lia. cbn. lra. }
    intros f [<-|[]]. split; [cbn; auto|]. change (-6 <= B2R (dZ (-5)))%R. rewrite dZ_R by lia. lra.
  - intros V V0 V1. eexists. split; [reflexivity|]. cbn [In]. intros P [<-|[<-|[]]].
    + cbn [den num bindv Nat.eqb]. rewrite V1. cbn [vr]. f_equal. apply decide_t. cbn [relR]. rewrite dZ_R by lia. lra.
    + cbn [in_domain fst snd]. rewrite V0. unfold between. rewrite !dZ_ext by lia. cbn. lra.
Qed.
(** An Int parameter takes a Real argument. *)
Definition script8 : list scmd := [KDefine 5 [(0, SoInt)] SoReal (SSym 0); KAssert (SEq (SApp 5 [SAri ADiv (num 1) [num 2]]) (SAri ADiv (num 1) [num 2])); KCheck 20].
Lemma script8_poses fpow : poses (script fpow 20 al script8 drv0) [ONew (mkVar 10 INTEGER); ODeclare (mkVar 10 INTEGER) false; OAssert FTrue; OCheck 20] = true.
Proof. vm_compute. reflexivity. Qed.
Lemma int_param uf rc fpow : exists s t, script fpow 20 al script8 drv0 = (Val s, t) /\ Forall (exact (std uf rc)) t /\
  In (KDefine 5 [(0%nat, SoInt)] SoReal (SSym 0)) script8 /\ forall FN E, ~ of_sort SoInt (den (std uf rc) FN (SAri ADiv (num 1) [num 2]) E).
Proof.
  destruct (poses_ok uf rc _ _ (script8_poses fpow)) as (s & t & E & _ & H2 & _). exists s, t. split; [exact E|]. split; [exact H2|]. split; [left; reflexivity|].
  intros FN E0 (k & Hk). change (B2R (dZ 1) / B2R (dZ 2) = IZR k)%R in Hk. rewrite !dZ_R in Hk by lia. assert (X : IZR (2 * k) = 1%R) by (rewrite mult_IZR; lra). apply (eq_IZR _ 1) in X. lia.
Qed.

(** ** Terms
<<
(ite (xor b (forall ((z Real [0,1]) (c Bool)) (or c (<= z x)))) (= x 2) (=> (f 1 2) (and (< x 1) (= b true))))
>> after the declarations of [script1]: x 0, n 1, b 2, f 3 *)
Definition term9 : sterm :=
  SIte (SXor [SSym 2; SForall [(7, SoReal, (dZ 0, dZ 1)); (8, SoBool, (ninf, pinf))] (SOr [SSym 8; SRel RLeq (SSym 7) (SSym 0)])])
       (SEq (SSym 0) (num 2)) (SImp (SApp 3 [num 1; SAri ATimes (num 2) [SSym 1]]) (SAnd [SRel RLt (SSym 0) (num 1); SEq (SSym 2) STrue])).
Definition script9 := firstn 4 script1.
Lemma script9_poses fpow : poses (script fpow 20 alloc1 script9 drv0) (firstn 10 calls1) = true. Proof. vm_compute. reflexivity. Qed.
Definition then_elab (fpow : dbl -> dbl -> dbl) (t : sterm) (c : comp drv) : comp (term * drv) := match c with (Val s, _) => elab fpow 20 alloc1 t s | _ => throw end.
Lemma then_elab_val fpow t s u : then_elab fpow t (Val s, u) = elab fpow 20 alloc1 t s. Proof. reflexivity. Qed.
Lemma term9_elabs fpow : elabs_well (then_elab fpow term9 (script fpow 20 alloc1 script9 drv0)) = true. Proof. vm_compute. reflexivity. Qed.
Lemma term9_plain : plain_term term9.
Proof.
  assert (Hb : Forall binder_ok [(7%nat, SoReal, (dZ 0, dZ 1)); (8%nat, SoBool, (ninf, pinf))]).
  { constructor; [|constructor; [|constructor]].
    - split; [|split; [apply dZ_nan; lia|split; [apply dZ_nan; lia|discriminate]]]. exists (VR 0). split; [exact I|]. cbn [bounded fst snd]. unfold between. rewrite !dZ_ext by lia. cbn. lra.
    - split; [exists (VB true); split; exact I|]. repeat split; auto. }
  unfold term9, num. cbn [plain_term fold_right]. repeat match goal with |- _ /\ _ => split | |- True => exact I | |- _ = false => reflexivity end. exact Hb.
Qed.
Lemma script9_ok uf rc : Forall plain_cmd script9 /\ s_defd (std uf rc) stdD vals1 script9 s_init /\ s_sorted vals1 script9 0.
Proof. split; [repeat constructor|]. split; [cbn; auto|cbn; repeat split; exists 4%Z; reflexivity]. Qed.
Lemma term9_defd uf rc : let S0 := s_run (std uf rc) stdD vals1 script9 s_init in defd (std uf rc) (ss_funs S0) stdD (ss_fdef S0) term9 (ss_env S0).
Proof. cbn. repeat split; auto; intros; discriminate. Qed.
Lemma reads9 : exists rho, reads vals1 (firstn 10 calls1) rho.
Proof.
  exists (fun v => match vty v with CONTINUOUS | INTEGER => 4%R | _ => 0%R end). split.
  - intros v. destruct (vty v); cbn; auto. exists 4%Z. reflexivity.
  - intros i v. do 3 (destruct i as [|i]; [cbn; intros X; injection X as <-; unfold varval; cbn; auto; f_equal; apply decide_f; lra|]). cbn. destruct i; discriminate.
Qed.
Lemma term9_meets uf rc fpow : (forall i j, i < j -> alloc1 i < alloc1 j)%nat /\
  exists s tr tm s' tr', script fpow 20 alloc1 script9 drv0 = (Val s, tr) /\ Forall (exact (std uf rc)) tr /\ Forall plain_cmd script9 /\ Forall kept (d_notes s') /\
    s_defd (std uf rc) stdD vals1 script9 s_init /\ s_sorted vals1 script9 0 /\ elab fpow 20 alloc1 term9 s = (Val (tm, s'), tr') /\ Forall (exact (std uf rc)) tr' /\ plain_term term9 /\ has_let term9 = false /\
    (let S0 := s_run (std uf rc) stdD vals1 script9 s_init in defd (std uf rc) (ss_funs S0) stdD (ss_fdef S0) term9 (ss_env S0)) /\ exists rho, reads vals1 (rev (d_ops s)) rho.
Proof.
  split; [exact alloc1_mono|]. destruct (poses_ok uf rc _ _ (script9_poses fpow)) as (s & t & E & H1 & H2 & _).
  pose proof (term9_elabs fpow) as W. rewrite E, then_elab_val in W. destruct (elabs_well_ok uf rc _ W) as (tm & s' & t' & E' & H3 & H4).
  destruct (script9_ok uf rc) as (K1 & K2 & K3). exists s, t, tm, s', t'. rewrite H1.
  exact (conj E (conj H2 (conj K1 (conj H4 (conj K2 (conj K3 (conj E' (conj H3 (conj term9_plain (conj eq_refl (conj (term9_defd uf rc) reads9))))))))))).
Qed.
