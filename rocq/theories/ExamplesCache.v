(** Histories with a caching theory solver. *)
From Coq Require Import ZArith Reals Lra Lia List Bool Arith.
From Flocq Require Import Core.Core IEEE754.BinarySingleNaN.
From Verif Require Import Dbl DblProofs Syntax Sem SemProofs FormulaCons SpecForm Interval IntervalProofs IEval IEvalProofs StdInterp MathConv MathConvProofs ExprAlg SpecAlg SpecIte DeltaStr
  Contr IbexConv Filter Theory Regular Wff Scoped IteElim Sat Context SpecCtx CtxTop Forall Cache SpecCache CacheTop
  ExamplesForm ExamplesBox ExamplesEval ExamplesIte ExamplesAlg ExamplesContr ExamplesIcp ExamplesCtx ExamplesForall.
Import ListNotations.
Local Notation R := Rdefinitions.R.
#[local] Opaque dZ mkd.

(** The evaluator and the contractor of Forall.v on one box, at the precisions derived in theory_solver.cc:178-187, 232-236 (0.99 as a double) *)
Definition d099 : dbl := mkd 8917127262193582 (-53).
Definition in_T (p : dbl) : nat -> box -> list formula -> option tres := solver_seq plain_sub plain_neg 10 lib_orc default_term 20 icp_ev ibex_mid p false (fun _ => 2000) (fun _ => true).
Definition fe_at (p : dbl) (f : formula) (b : box) : option (etype * ival) :=
  let eps := dmul d099 p in let d := dmul d099 eps in
  match fe_life nofold kplain brute (in_T d) ibex_mid d (fun a _ => a) 20 20 icp_ev f eps 10 20 [b] with (Val (Some (_, [r])), _) => Some r | _ => None end.
Definition fa_at (p : dbl) (vars : list var) (f : formula) (b : box) : option (list ival) :=
  let eps := dmul half p in let d := dmul half eps in
  match fc_life nofold kplain brute (in_T d) ibex_mid d (fun a _ => a) 20 20 plain_sub plain_neg 10 lib_orc default_term 20 false (fun b => b) f vars eps 10 20 20 [b] with (Val (Some (_, [r])), _) => Some (bvals r) | _ => None end.
Definition ex_srch := by_seq ibex_mid (fun _ => 2000) (fun _ => true).
Definition kx ops := k_run plain_sub plain_neg 10 lib fa_at fe_at icp_ev default_term 20 ex_srch nofold kplain brute ibex_mid ops half (cx_init 10) cache0.
Definition px ops := p_run nofold kplain brute (fresh_T plain_sub plain_neg 10 lib fa_at fe_at icp_ev default_term 20 ex_srch) ibex_mid ops half (cx_init 10).
Definition kverdicts (r : option (ctx * tcache * list (option box))) : option (list bool) := option_map (fun x => map (fun o => match o with Some _ => true | None => false end) (snd x)) r.

Lemma ex_srch_is : a_search ibex_mid ex_srch. Proof. left. eexists _, _. reflexivity. Qed.
Definition fi3 : formula := FRel RGt (EVar vi) (EConst (dZ 3)).
(** The literal i > 3 is checked over (i, x), then over (x, i). *)
Definition swap_ops : list cop := [OPush; ODeclareDom vi (dZ 0) (dZ 10) true; ODeclareDom vx (dZ 0) (dZ 1) true; OAssert fi3; OCheck 20; OPop;
  OPush; ODeclareDom vx (dZ 0) (dZ 1) true; ODeclareDom vi (dZ 0) (dZ 10) true; OAssert fi3; OCheck 20].
Lemma swap_runs : kverdicts (kx (map KOp swap_ops)) = Some [true; false] /\ verdicts (px (map KOp swap_ops)) = Some [true; true]. Proof. split; vm_compute; reflexivity. Qed.
Definition at40 : env := fun v => if var_eqb v vi then 4%R else 0%R.
Lemma at40_typed : well_typed at40.
Proof.
  intros v. unfold at40. destruct (var_eqb v vi) eqn:E.
  - apply var_eqb_eq in E. subst v. cbn. exists 4%Z. reflexivity.
  - destruct (vty v); cbn; auto. exists 0%Z. reflexivity.
Qed.
Lemma k_answers ops p vs : kverdicts (kx ops) = Some vs -> verdicts (px ops) = p -> exists x c a, kx ops = Some (x, c, a) /\ vs = map (fun o => match o with Some _ => true | None => false end) a.
Proof. intros H _. unfold kverdicts in H. destruct (kx ops) as [[[x c] a]|]; cbn [option_map snd] in H; [|discriminate]. exists x, c, a. split; [reflexivity|congruence]. Qed.
Lemma swap_wrong : exists x c a, kx (map KOp swap_ops) = Some (x, c, a) /\
  ~ Forall2 (fun q r => r = None -> ~ exists rho, solution Mstd stdD q rho) (problems swap_ops (p_empty, [])) a.
Proof.
  destruct (k_answers _ _ _ (proj1 swap_runs) eq_refl) as (x & c & a & E & V). exists x, c, a. split; [exact E|]. intros F.
  cbn [swap_ops problems p_step fst] in F. destruct a as [|[m|] [|[m'|] [|? ?]]]; try discriminate V.
  inversion F as [|? r1 ? l1 H2 F1 X1 Y1]; subst. inversion F1 as [|? r2 ? l2 H3 F2 X2 Y2]; subst.
  apply (H3 eq_refl). exists at40. split; [exact at40_typed|]. split.
  - intros v d Hd. cbn in Hd. destruct Hd as [Hd|[Hd|[]]]; injection Hd as <- <-; unfold between, at40; rewrite !dZ_ext by lia; cbn; lra.
  - intros f [<-|[]]. split.
    + unfold fi3, regular. cbn [regF regE]. split; [split; exact I|]. cbn [evalE]. intros _. split; intros k Hk; cbn [consts_of] in Hk; [|contradiction].
      destruct Hk as [<-|[]]. apply (gap_dbl _ (dZ 4)); [apply dZ_fin; lia|apply dZ_nan; lia|apply dZ_ext; lia].
    + cbn [holds fi3 relR evalE]. rewrite dZ_R by lia. unfold at40. cbn. lra.
Qed.

(** forall y. y >= 20 or y <= -20 or i <= 3, with i in [4,5], checked at precision 8 and then at precision 1/4 *)
Definition fa9 : formula := FForall [vy] (FOr [yc RGeq 20; yc RLeq (-20); FRel RLeq (EVar vi) (EConst (dZ 3))]).
Definition prec_ops : list kop := [KOp (ODeclareDom vi (dZ 4) (dZ 5) true); KOp (OAssert fa9); KPrec (dZ 8); KOp (OCheck 20); KPrec quarter; KOp (OCheck 20)].
Lemma prec_runs : kverdicts (kx prec_ops) = Some [true; true] /\ verdicts (px prec_ops) = Some [true; false]. Proof. split; vm_compute; reflexivity. Qed.
Lemma fa9_far rho : (4 <= rho vi <= 5)%R -> ~ slack Mstd (- / 4) fa9 rho.
Proof.
  intros Hi H. cbn [fa9 slack] in H. set (r := fun v => if var_eqb v vy then 0%R else rho v).
  assert (Ey : r vy = 0%R) by (unfold r; reflexivity). assert (Ei : r vi = rho vi) by (unfold r; reflexivity).
  assert (A : agree_off [vy] rho r). { intros v Nv. unfold r. destruct (var_eqb v vy) eqn:E; [|reflexivity]. apply var_eqb_eq in E. subst v. destruct Nv. left. reflexivity. }
  specialize (H r A). clearbody r.
  assert (T : forall v, In v [vy] -> typed_val (vty v) (r v)) by (intros v [<-|[]]; exact I).
  specialize (H T). cbn [fold_right yc slack slackR evalE] in H. rewrite !dZ_R in H by lia. rewrite Ey, Ei in H.
  destruct H as [H|[H|[H|H]]]; lra.
Qed.
Lemma prec_wrong : (exists x c m m', kx prec_ops = Some (x, c, [Some m; Some m'])) /\ (exists x m, px prec_ops = Some (x, [Some m; None])) /\
  forall rho, (4 <= rho vi <= 5)%R -> ~ slack Mstd (- B2R quarter) fa9 rho.
Proof.
  destruct prec_runs as [E1 E2]. split; [|split].
  - destruct (k_answers _ _ _ E1 eq_refl) as (x & c & a & E & V). destruct a as [|[m|] [|[m'|] [|? ?]]]; try discriminate V. exists x, c, m, m'. exact E.
  - unfold verdicts in E2. destruct (px prec_ops) as [[x a]|]; cbn [option_map snd] in E2; [|discriminate E2]. destruct a as [|[m|] [|[m'|] [|? ?]]]; try discriminate E2. exists x, m. reflexivity.
  - intros rho H. rewrite quarter_R. exact (fa9_far rho H).
Qed.

Lemma ops1_two : two_phase (map KOp ops1).
Proof.
  exists (firstn 5 (map KOp ops1)), (skipn 5 (map KOp ops1)). split; [reflexivity|]. split; cbn [firstn skipn map ops1]; repeat constructor.
Qed.
Lemma ops1_cached : kverdicts (kx (map KOp ops1)) = Some [false; true]. Proof. vm_compute. reflexivity. Qed.
Definition qx (a b : Z) (fs : list formula) : query := {| q_prec := half; q_box := mkBox [vx; vi] [IV (dZ a) (dZ b); IV (dZ 0) (dZ 3)]; q_lits := fs |}.
Definition xnc (o : relop) (z : Z) : formula := FRel o xn (EConst (dZ z)).
(** x + n >= 5 is checked three times, with n in [0,3] and x in [0,4], in [-4,0] and, with x + n <= 6, in [0,9]. *)
Definition qs3 : list query := [qx 0 4 [xnc RGeq 5]; qx (-4) 0 [xnc RGeq 5]; qx 0 9 [xnc RGeq 5; xnc RLeq 6]].
Lemma qs3_unchanged : unchanged qs3.
Proof. intros q q' f Hq Hq' _ _. assert (V : forall q, In q qs3 -> bvars (q_box q) = [vx; vi] /\ q_prec q = half) by (intros ? [<-|[<-|[<-|[]]]]; split; reflexivity). destruct (V _ Hq), (V _ Hq'). split; [congruence|intros _; congruence]. Qed.
Definition answers3 (r : option (tcache * list tres)) : option (list bool * nat) := option_map (fun x => (map (fun t => match t with TSat _ => true | TUnsat _ => false end) (snd x), length (t_ctcs (fst x)))) r.
Lemma qs3_runs : answers3 (tc_run plain_sub plain_neg 10 lib fa_at fe_at icp_ev default_term 20 ex_srch 0 qs3 cache0) = Some ([true; false; true], 2).
Proof. vm_compute. reflexivity. Qed.
