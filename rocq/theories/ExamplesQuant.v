(** Quantified problems solved by a context whose contractors and evaluators for quantified formulas have inner contexts. *)
From Coq Require Import ZArith Reals Lra Lia List Bool Arith.
From Flocq Require Import Core.Core IEEE754.BinarySingleNaN.
From Verif Require Import Dbl DblProofs Syntax Sem SemProofs FormulaCons SpecForm Interval IntervalProofs IEval IEvalProofs StdInterp MathConv MathConvProofs ExprAlg SpecAlg SpecIte DeltaStr VarSet ConsUnfolded
  Contr IbexConv Filter Theory Regular RegularProofs Wff Scoped IteElim Sat Context SpecCtx SpecModel SpecApi CtxTop Forall SpecForall ForallProofs ForallEval SpecQuant QuantTop
  ExamplesForm ExamplesBox ExamplesEval ExamplesIte ExamplesAlg ExamplesContr ExamplesIcp ExamplesCtx ExamplesSmt2 ExamplesForall ExamplesModel.
Import ListNotations.
Local Notation R := Rdefinitions.R.
#[local] Opaque dZ mkd.

(** A contractor and an evaluator built anew for every box, for the formula [q] *)
Definition fa_ex (q f : formula) (b : box) : option (list ival) :=
  if formula_eqb f q && list_eqb var_eqb (bvars b) [vx] && fullb b then
    match setup_ex q with
    | (Val (ops, Some ctc), _) =>
        match run_ex ex_T ops with
        | Some (c, []) => match prunes_ex q [b] ctc c with Some (_, [r]) => Some (bvals r) | _ => None end
        | _ => None
        end
    | _ => None
    end
  else None.
Definition ev_ex (q f : formula) (b : box) : option (etype * ival) :=
  if is_forall f then
    match fe_setup (fun a _ => a) 20 20 q quarter with
    | (Val ops, _) =>
        match run_ex ex_T ops with
        | Some (c, []) => match evals_ex f [b] c with Some (_, [r]) => Some r | _ => None end
        | _ => None
        end
    | _ => None
    end
  else icp_ev f b.
Definition q_T (q : formula) : nat -> box -> list formula -> option tres :=
  solver_seq plain_sub plain_neg 10 (ibex_oracles lib plain_sub plain_neg 10 (fa_ex q)) default_term 20 (ev_ex q) ibex_mid half false (fun _ => 2000) (fun _ => true).
Definition q_P (q : formula) : nat -> box -> list formula -> option tres :=
  solver_par plain_sub plain_neg 10 (ibex_oracles lib plain_sub plain_neg 10 (fa_ex q)) default_term 20 (ev_ex q) ibex_mid half false (fun _ => true) 2 (fun _ => robin 2 2000).
(** x in [0,10], for all y: y >= 2 or y <= -1 or x <= 3; then x >= 4 *)
Definition qops : list cop := [ODeclareDom vx (dZ 0) (dZ 10) true; OAssert fa2; OCheck 20; OAssert (xc RGeq 4); OCheck 20].
Lemma q_runs : verdicts (run_ex (q_T fa2) qops) = Some [true; false] /\ verdicts (run_ex (q_P fa2) qops) = Some [true; false].
Proof. split; vm_compute; reflexivity. Qed.
Lemma q_adm : admissible_q Mstd stdD nofold kplain 10 True qops [] (p_empty, []).
Proof.
  assert (W : forall z, (Z.abs z <= 2 ^ 53)%Z -> is_finite (dZ z) = true) by exact dZ_fin.
  unfold qops. cbn [admissible_q op_ok_q p_step news_step fst snd].
  split; [|split; [|split; [exact I|split; [|split; exact I]]]].
  - split; [left; cbn; lia|]. split; [intros _; left; reflexivity|apply dom_ok_of; lia].
  - split; [|apply plain_ite]. cbn [wfF fa2]. split; [split; [exists vy; split; [exact I|left; cbn; lia]|]|].
    + intros v [<-|[]]. split; [exact I|left; cbn; lia].
    + cbn [bodyF body2 fold_right yc xc finE hasIteE fvE app]. assert (X1 : is_finite (dZ 2) = true) by (apply W; lia). assert (X2 : is_finite (dZ (-1)) = true) by (apply W; lia). assert (X3 : is_finite (dZ 3) = true) by (apply W; lia).
      split; [|split; [|split; [|exact I]]]; (split; [split; [exact I|assumption]|]); (split; [split; reflexivity|]); intros v [<-|[]];
        [right; left; reflexivity|right; left; reflexivity|left; split; [cbn; auto|discriminate]].
  - split; [|apply plain_ite]. cbn [xc wfF wfE]. split; [split; [cbn; auto|discriminate]|apply W; lia].
Qed.
Lemma one_box (x : option (ctx * list box)) iv : match x with Some (_, [r]) => Some (bvals r) | _ => None end = Some iv -> exists c r, x = Some (c, [r]) /\ iv = bvals r.
Proof. destruct x as [[c [|r [|? ?]]]|]; try discriminate. intros E. exists c, r. split; [reflexivity|congruence]. Qed.
Lemma one_eval (x : option (ctx * list (etype * ival))) r : match x with Some (_, [r]) => Some r | _ => None end = Some r -> exists c, x = Some (c, [r]).
Proof. destruct x as [[c [|q [|? ?]]]|]; try discriminate. intros E. exists c. congruence. Qed.
Lemma q_contractors : prunes_by_contractors Mstd stdD nofold plain_sub plain_neg 10 lin lib (fun _ _ => None) default_term 20 ibex_mid kplain brute (fa_ex fa2).
Proof.
  intros f b iv Hf Kb E. unfold fa_ex in E.
  destruct (formula_eqb f fa2) eqn:E1; cbn [andb] in E; [|discriminate]. apply formula_eqb_eq in E1. subst f.
  destruct (list_eqb var_eqb (bvars b) [vx]) eqn:E2; cbn [andb] in E; [|discriminate]. apply (list_eqb_eq' _ _ (fun a c => proj1 (var_eqb_eq a c))) in E2.
  destruct (fullb b) eqn:E3; [|discriminate].
  assert (Fb : b_full b) by (apply Forall_forall; intros i Hi; unfold fullb in E3; rewrite forallb_forall in E3; apply negb_true_iff, E3, Hi).
  destruct fa2_meets as (ctc & t & c0 & b0 & c1 & M1 & M2 & M3 & M4 & M5 & M6 & M7 & M8 & M9 & M10 & M11 & _).
  rewrite M7, M8 in E. apply one_box in E. destruct E as (c2 & r & Ep & ->).
  exists half, false, ex_T, 10, (fun b => b), (fun a _ => a), 20, 20, false, [vy], body2, quarter, fops2, ctc, t, c0, b0, c2, [b], 20, 20, [r], 0.
  rewrite E2. split; [reflexivity|]. split; [vm_compute; reflexivity|]. split; [unfold half; rewrite mkd_half; lra|]. split; [left; exists (fun _ => 2000), (fun _ => true); reflexivity|].
  split; [split; [exact M1|split; [discriminate|exact M2]]|]. split; [split; [exact M3|split; [exact M4|split; [exact M5|exact M6]]]|].
  split; [exact M7|]. split; [exact M8|]. split; [exact M9|]. split; [exact M10|]. split; [exact M11|].
  split; [intros b1 [<-|[]]; split; [exact Kb|split; [exact Fb|exact E2]]|]. split; [exact Ep|]. split; reflexivity.
Qed.
Lemma q_evaluators q : evaluates_by_evaluators nofold plain_sub lin ibex_mid kplain brute (ev_ex q).
Proof.
  split; intros f b; unfold ev_ex.
  - intros ->. reflexivity.
  - intros r -> E. destruct (fe_setup (fun a _ => a) 20 20 q quarter) as [[ops| | |] t]; try discriminate.
    destruct (run_ex ex_T ops) as [[c [|? ?]]|]; try discriminate. apply one_eval in E. destruct E as [c1 Ee]. exists half, ex_T, 20, c, c1, [b], [r], 0. split; [exact Ee|]. split; reflexivity.
Qed.
Lemma q_typed : Forall op_typed qops.
Proof. unfold qops. repeat constructor. Qed.

(** x in [0,4], for all y: y >= 0 or y <= 1.  The formula is true everywhere, and the answer is unsat. *)
Definition qops3 : list cop := [ODeclareDom vx (dZ 0) (dZ 4) true; OAssert fa3; OCheck 20].
Lemma q3_runs : verdicts (run_ex (q_T fa3) qops3) = Some [false] /\ verdicts (run_ex (q_P fa3) qops3) = Some [false].
Proof. split; vm_compute; reflexivity. Qed.
Lemma q3_wrong : exists c a, run_ex (q_T fa3) qops3 = Some (c, a) /\
  ~ Forall2 (fun q r => r = None -> ~ exists rho, solution Mstd stdD q rho) (problems qops3 (p_empty, [])) a.
Proof.
  destruct (answers_of _ _ _ (proj1 q3_runs)) as (c & a & E & V). exists c, a. split; [exact E|]. intros F.
  cbn [qops3 problems p_step fst] in F. destruct a as [|[m|] [|? ?]]; try discriminate V.
  inversion F as [|? r1 ? l1 H F1 X1 Y1]; subst. apply (H eq_refl). exists (fun _ => 0%R). split; [|split].
  - intros v. destruct (vty v); cbn; auto. exists 0%Z. reflexivity.
  - intros v d Hd. cbn in Hd. destruct Hd as [Hd|[]]. injection Hd as <- <-. unfold between. rewrite !dZ_ext by lia. cbn. lra.
  - intros f [<-|[]]. split.
    + unfold regular. cbn [fa3 regF fold_right yc regE]. intros rho' _ _. unfold relax. repeat split; auto; exfalso; apply (H0 vy); cbn; auto.
    + cbn [fa3 holds fold_right yc relR evalE]. intros rho' _ _. rewrite !dZ_R by lia. destruct (Rle_dec 0 (rho' vy)); [left; lra|right; left; lra].
Qed.
