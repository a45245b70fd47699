(** .dr problems and calls of the library interface. *)
From Coq Require Import ZArith Reals Lra Lia List Bool.
From Flocq Require Import Core.Core IEEE754.BinarySingleNaN.
From Verif Require Import Dbl DblProofs Syntax Sem SemProofs FormulaCons Interval IEval IEvalProofs StdInterp MathConv MathConvProofs ExprAlg SpecAlg SpecForm PredAbs
  Contr Icp IcpTop Filter Theory TheoryUsed TheoryTop Regular Wff IteElim SpecIte Sat Scoped Context SpecCtx SpecWeak CtxInv CtxTop Smt2 Minim Dr SpecDr Api SpecApi
  ExamplesForm ExamplesBox ExamplesEval ExamplesContr ExamplesIcp ExamplesTheory ExamplesIte ExamplesAlg ExamplesCtx ExamplesSmt2.
Import ListNotations.
#[local] Opaque dZ mkd.

Definition ex_TT (precision : dbl) : nat -> box -> list formula -> option tres :=
  solver_seq plain_sub plain_neg 10 lib_orc default_term 20 icp_ev ibex_mid precision false (fun _ => 2000) (fun _ => true).

(** ** [var: [0, 1 + 3] x; 2 y; ctr: x + y >= 8; x <= 3 or not y > 1;] *)
Definition evlx (e : expr) : option dbl := match e with EConst c => Some c | _ => None end.
Definition nume (z : Z) : dexp := DNum (dZ z).
Definition dr1 : dfile := mkDr [mkDecl (nume 0) (Some (DAdd (nume 1) (nume 3))) 7; mkDecl (nume 2) None 8]
  [DRel DGe (DAdd (DId 7) (DId 8)) (nume 8); DOr (DRel DLe (DId 7) (nume 3)) (DNot (DRel DGt (DId 8) (nume 1)))] [].
Definition dx : var := mkVar 10 CONTINUOUS.
Definition dy : var := mkVar 11 CONTINUOUS.
Definition dr1_calls : list cop :=
  [ONew dx; ODeclareDom dx (dZ 0) (dZ 4) true; ONew dy; ODeclareDom dy (dZ 2) (dZ 2) true;
   OAssert (FRel RGeq (EAdd dzero [(EVar dx, dZ 1); (EVar dy, dZ 1)]) (EConst (dZ 8)));
   OAssert (FOr [FRel RLeq (EVar dx) (EConst (dZ 3)); FNot (FRel RGt (EVar dy) (EConst (dZ 1)))])].
Definition calls_are (c : comp (list cop * list expr)) (ops : list cop) (k : nat) : bool :=
  match c with (Val (o, gs), t) => cops_eqb o ops && (Nat.eqb (length gs) k && forallb stepb t) | _ => false end.
Lemma calls_are_ok uf rc c ops k : calls_are c ops k = true -> exists gs t, c = (Val (ops, gs), t) /\ length gs = k /\ Forall (exact (std uf rc)) t.
Proof.
  destruct c as [[[o gs]| | |] t]; cbn [calls_are]; try discriminate. intros H. apply andb_true_iff in H. destruct H as [H1 H]. apply andb_true_iff in H. destruct H as [H2 H3].
  apply cops_eqb_eq in H1. subst o. exists gs, t. split; [reflexivity|]. split; [now apply Nat.eqb_eq|]. now apply stepsb_exact.
Qed.
Lemma dr1_poses fpow : calls_are (dr_calls fpow 20 evlx dr1 10) dr1_calls 0 = true. Proof. vm_compute. reflexivity. Qed.
(** What is printed: unsat (0), delta-sat (1), a model (2), a minimum (3) *)
Definition kinds (c : comp (option (list dline))) : option (list nat) :=
  match c with (Val (Some l), _) => Some (map (fun x => match x with OutUnsat => 0 | OutDelta _ => 1 | OutModel _ => 2 | OutMin _ _ => 3 end) l) | _ => None end.
Lemma dr1_prints fpow : kinds (dr_run fpow 20 evlx nofold kplain brute (ex_TT half) ibex_mid half (fun _ _ => i_all) dr1 true 10 20) = Some [0]. Proof. vm_compute. reflexivity. Qed.
Lemma dr1_adm fuel : admissible Mstd stdD nofold kplain 10 (dr1_calls ++ [OCheck fuel]) [] (p_empty, []).
Proof.
  assert (W : forall z, (Z.abs z <= 2 ^ 53)%Z -> is_finite (dZ z) = true) by exact dZ_fin.
  unfold dr1_calls. cbn [app admissible op_ok p_step news_step fst snd admissible_q op_ok_q].
  repeat match goal with
  | |- _ /\ _ => split
  | |- True => exact I
  | |- known _ _ _ => right; cbn; auto
  | |- dom_ok _ _ _ => apply dom_ok_of; lia
  | |- declared _ _ -> redomain_ok _ _ _ _ => intros _; left; reflexivity
  | |- ite_exact _ _ _ _ _ => apply plain_ite
  | |- wfF _ _ _ _ => cbn [wfF wfE fold_right]
  | |- declared _ _ => cbn; auto 10
  | |- is_finite dzero = true => reflexivity
  | |- is_finite (dZ _) = true => apply W; lia
  | |- vty _ <> BOOLEAN => discriminate
  end.
Qed.
(** With a cost: [cost: x;] *)
Definition dr2 : dfile := mkDr (dr_vars dr1) (tl (dr_ctr dr1)) [DId 7].
Definition toyT (precision : dbl) (_ : nat) (b : box) (_ : list formula) : option tres := Some (TSat b).
Lemma dr2_prints fpow : kinds (dr_run fpow 20 evlx nofold kplain brute (toyT half) ibex_mid half (fun _ _ => i_all) dr2 true 10 20) = Some [1; 2; 3]. Proof. vm_compute. reflexivity. Qed.

(** ** [var: [0, 1] x; ctr: 0.3 - 0.2 = 0.1;]: decimals are rounded to doubles and folded. *)
Definition tenth (z : Z) : dbl := ddiv (dZ z) (dZ 10).
Definition dr3 : dfile := mkDr [mkDecl (nume 0) (Some (nume 1)) 7] [DRel DEq (DSub (DNum (tenth 3)) (DNum (tenth 2))) (DNum (tenth 1))] [].
Definition kinds_are (c : comp (option (list dline))) (l : list dline) : bool :=
  match c with (Val (Some [OutUnsat]), _) => match l with [OutUnsat] => true | _ => false end | _ => false end.
Lemma unsat_lines c : kinds_are c [OutUnsat] = true -> exists t, c = (Val (Some [OutUnsat]), t).
Proof. destruct c as [[[[|[| | |] [|? ?]]|]| | |] t]; cbn [kinds_are]; try discriminate. intros _. exists t. reflexivity. Qed.
Lemma dr3_unsat fpow : kinds_are (dr_run fpow 20 evlx nofold kplain brute (ex_TT half) ibex_mid half (fun _ _ => i_all) dr3 true 10 20) [OutUnsat] = true. Proof. vm_compute. reflexivity. Qed.

(** ** Calls of the library interface: x <= 1 and x >= 3; x <= 3 and x >= 1 and 2 x <= 8 *)
Definition af1 : formula := FAnd [FRel RLeq ex_x (EConst (dZ 1)); FRel RGeq ex_x (EConst (dZ 3))].
Definition af2 : formula := FAnd [FRel RLeq ex_x (EConst (dZ 3)); FRel RGeq ex_x (EConst (dZ 1)); FRel RLeq (EAdd dzero [(ex_x, dZ 2)]) (EConst (dZ 8))].
Definition verdict (r : option (option box)) : option bool := match r with Some (Some _) => Some true | Some None => Some false | None => None end.
Lemma af_runs : verdict (api_check nofold kplain brute ex_TT ibex_mid af1 half 10 20) = Some false /\ verdict (api_check nofold kplain brute ex_TT ibex_mid af2 half 10 20) = Some true.
Proof. vm_compute. auto. Qed.
Definition wrote (r : option (bool * box)) (old : box) : option (bool * bool) :=
  match r with Some (b, m) => Some (b, negb (Nat.eqb (b_size m) (b_size old))) | None => None end.
Lemma af_boxes : wrote (api_check_box nofold kplain brute ex_TT ibex_mid af1 half 10 20 box0) box0 = Some (false, false) /\
  wrote (api_check_box nofold kplain brute ex_TT ibex_mid af2 half 10 20 box0) box0 = Some (true, true).
Proof. vm_compute. auto. Qed.
Lemma af_ids : fresh_ids (fvF af1) 10 /\ fresh_ids (fvF af2) 10 /\ fresh_ids (fvF af2 ++ fvE ex_x) 10.
Proof. repeat split; cbn; intros; repeat match goal with H : _ \/ _ |- _ => destruct H | H : False |- _ => destruct H end; subst; cbn; auto; lia. Qed.
Lemma af_qf : qf_formula af1 /\ qf_formula af2.
Proof.
  unfold qf_formula, af1, af2, ex_x. cbn [wfF wfE fold_right]. split; repeat match goal with |- _ /\ _ => split | |- True => exact I | |- is_finite (dZ _) = true => apply dZ_fin; lia | |- vty _ <> _ => discriminate | |- is_finite dzero = true => reflexivity end.
Qed.
Lemma af2_delta : hasIteF af2 = false /\ unfolded nofold af2 /\ af2 <> FFalse.
Proof.
  split; [reflexivity|]. split; [|discriminate]. unfold af2. apply ro_and. intros g Hg. simpl in Hg. repeat destruct Hg as [<-|Hg]; try contradiction; apply ro_rel; reflexivity.
Qed.
Definition mverdict (c : comp (option (option box))) : option bool := match c with (Val r, t) => if forallb stepb t then verdict r else None | _ => None end.
Lemma af_min fpow : mverdict (api_minimize nofold kplain brute toyT ibex_mid fpow 20 ex_x af2 half 10 20) = Some true. Proof. vm_compute. reflexivity. Qed.
Lemma tenth_nearest z : In z [1; 2; 3]%Z -> B2R (tenth z) = round radix2 (SpecFloat.fexp prec64 emax64) (round_mode mode_NE) (IZR z / 10).
Proof.
  intros Hz. assert (Z0 : (1 <= z <= 3)%Z) by (cbn in Hz; lia). clear Hz.
  assert (N : B2R (dZ 10) <> 0%R) by (rewrite dZ_R by lia; lra).
  pose proof (Bdiv_correct prec64 emax64 prec64_gt_0 prec64_lt_emax mode_NE (dZ z) (dZ 10) N) as H. rewrite !dZ_R in H by lia.
  rewrite Rlt_bool_true in H; [exact (proj1 H)|].
  apply Rle_lt_trans with 1%R.
  - apply abs_round_le_generic; [apply FLT_exp_valid; reflexivity|apply valid_rnd_round_mode| |].
    + replace 1%R with (bpow radix2 0) by reflexivity. apply generic_format_bpow. cbn. unfold SpecFloat.fexp, SpecFloat.emin, prec64, emax64. lia.
    + assert (1 <= IZR z <= 3)%R by (split; apply IZR_le; lia). rewrite Rabs_pos_eq; lra.
  - replace 1%R with (bpow radix2 0) by reflexivity. apply bpow_lt. unfold emax64. lia.
Qed.
