(** Quantified constraints: lives of an evaluator and of a contractor. *)
From Coq Require Import ZArith Reals Lra Lia List Bool Arith.
From Flocq Require Import Core.Core IEEE754.BinarySingleNaN.
From Verif Require Import Dbl DblProofs Syntax Sem SemProofs FormulaCons SpecForm Interval IntervalProofs IEval IEvalProofs StdInterp MathConv MathConvProofs ExprAlg SpecAlg SpecIte DeltaStr VarSet
  Contr IbexConv Filter Theory Regular Wff Scoped IteElim Sat Context SpecCtx SpecApi CtxTop Forall SpecForall ForallProofs ForallEval
  ExamplesForm ExamplesBox ExamplesEval ExamplesIte ExamplesAlg ExamplesContr ExamplesIcp ExamplesCtx ExamplesSmt2.
Import ListNotations.
Local Notation R := Rdefinitions.R.
#[local] Opaque dZ mkd.

Definition quarter : dbl := mkd 1 (-2).
Definition yc (o : relop) (z : Z) : formula := FRel o (EVar vy) (EConst (dZ z)).
Definition xy : expr := EAdd dzero [(EVar vx, dZ 1); (EVar vy, dZ 1)].
(** For all y: y >= 2 or y <= -1 or x + y <= 3 *)
Definition body1 : formula := FOr [yc RGeq 2; yc RLeq (-1); FRel RLeq xy (EConst (dZ 3))].
Definition fa1 : formula := FForall [vy] body1.
(** Its negation, strengthened by 1/4 *)
Definition neg1 : formula := FNot (FOr [FRel RGeq (EVar vy) (EConst (mkd 7 (-2))); FRel RLeq (EVar vy) (EConst (mkd (-3) (-2)));
  FRel RLeq (EAdd (mkd (-1) (-2)) [(EVar vx, dZ 1); (EVar vy, dZ 1)]) (EConst (dZ 3))]).
Definition fops1 : list cop := [ODeclare vx true; ODeclare vy true; OAssert neg1].

Lemma mkd_R m e : (Z.abs m < 2 ^ 53)%Z -> (-20 <= e <= 0)%Z -> is_finite (mkd m e) = true -> zof (mkd m e) = (m * 2 ^ (e + 1074))%Z -> B2R (mkd m e) = (IZR m * bpow radix2 e)%R.
Proof.
  intros _ He _ H. rewrite zof_R, H, mult_IZR. change 2%Z with (radix_val radix2) at 1. rewrite IZR_Zpower by lia. rewrite Rmult_assoc, <- bpow_plus. f_equal. f_equal. lia.
Qed.
Lemma quarter_fin : is_finite quarter = true. Proof. vm_compute. reflexivity. Qed.
Lemma quarter_R : B2R quarter = (/ 4)%R.
Proof. unfold quarter. rewrite mkd_R; [cbn; lra|lia|lia|vm_compute; reflexivity|vm_compute; reflexivity]. Qed.
Lemma quarter_pos : (0 < B2R quarter)%R. Proof. rewrite quarter_R. lra. Qed.

Definition gives_f (c : comp formula) (h : formula) : bool := match c with (Val g, t) => formula_eqb g h && forallb stepb t | _ => false end.
Lemma gives_f_ok uf rc c h : gives_f c h = true -> exists t, c = (Val h, t) /\ Forall (exact (std uf rc)) t.
Proof.
  destruct c as [[g| | |] t]; cbn [gives_f]; try discriminate. intros H. apply andb_true_iff in H. destruct H as [H1 H2]. apply formula_eqb_eq in H1. subst g. exists t. split; [reflexivity|now apply stepsb_exact].
Qed.
Lemma neg1_given fpow : gives_f (DeltaStrengthen fpow 20 20 (mk_not body1) quarter) neg1 = true. Proof. vm_compute. reflexivity. Qed.
Lemma fa1_setup fpow t : DeltaStrengthen fpow 20 20 (mk_not body1) quarter = (Val neg1, t) -> fe_setup fpow 20 20 fa1 quarter = (Val fops1, t).
Proof. intros H. unfold fe_setup. cbn [fa1 q_body q_vars]. rewrite H. cbn [ExprAlg.bind ret app]. rewrite app_nil_r. reflexivity. Qed.

Definition b1 (z : Z) : box := mkBox [vx] [IV (dZ 0) (dZ z)].
Definition etype_eqb (a b : etype) : bool := match a, b with VALID, VALID | UNSAT, UNSAT | UNKNOWN, UNKNOWN => true | _, _ => false end.
Lemma etype_eqb_eq a b : etype_eqb a b = true -> a = b. Proof. destruct a, b; auto; discriminate. Qed.
Lemma etypes_eq l : forall m, list_eqb etype_eqb l m = true -> l = m.
Proof. induction l as [|a l IH]; intros [|b m]; cbn [list_eqb]; try discriminate; auto. intros H. apply andb_true_iff in H. destruct H as [H1 H2]. f_equal; [now apply etype_eqb_eq|auto]. Qed.
Definition evs_are (r : option (ctx * list (option box))) (evs : ctx -> option (ctx * list (etype * ival))) (l : list etype) : bool :=
  match r with Some (c, []) => match evs c with Some (_, rs) => list_eqb etype_eqb (map fst rs) l | None => false end | _ => false end.
Lemma evs_gen r evs l : evs_are r evs l = true -> exists c0 c1 rs, r = Some (c0, []) /\ evs c0 = Some (c1, rs) /\ map fst rs = l.
Proof.
  unfold evs_are. destruct r as [[c0 [|? ?]]|]; try discriminate. destruct (evs c0) as [[c1 rs]|] eqn:E; try discriminate. intros H. exists c0, c1, rs. split; [reflexivity|]. split; [exact E|]. now apply etypes_eq.
Qed.
Definition evals_ex (f : formula) (bs : list box) (c : ctx) := fe_evals nofold kplain brute ex_T ibex_mid half icp_ev f 20 bs c.
Lemma fa1_runs : evs_are (run_ex ex_T fops1) (evals_ex fa1 [b1 4; b1 1]) [UNKNOWN; VALID] = true. Proof. vm_compute. reflexivity. Qed.

Lemma fin_of m e : is_finite (mkd m e) = true -> is_finite (mkd m e) = true. Proof. auto. Qed.
Lemma fops1_adm : admissible Mstd stdD nofold kplain 10 fops1 [] (p_empty, []).
Proof.
  unfold fops1, neg1. cbn [admissible op_ok p_step news_step fst snd admissible_q op_ok_q].
  repeat match goal with
  | |- _ /\ _ => split
  | |- True => exact I
  | |- known _ _ _ => left; cbn; lia
  | |- ite_exact _ _ _ _ _ => apply plain_ite
  | |- wfF _ _ _ _ => cbn [wfF wfE fold_right]
  | |- declared _ _ => cbn; auto 10
  | |- is_finite (dZ _) = true => apply dZ_fin; lia
  | |- is_finite _ = true => vm_compute; reflexivity
  | |- vty _ = _ => reflexivity
  | |- vty _ <> _ => discriminate
  end.
Qed.
Lemma fops1_ints wl : ints_ok wl fops1.
Proof. intros W o v [<-|[<-|[<-|[]]]]; cbn; intuition (subst; auto). Qed.
Lemma b1_ok z : (0 <= z <= 2 ^ 53)%Z -> box_ok (b1 z).
Proof.
  intros H. split; [repeat constructor; intros []|]. split; [reflexivity|]. constructor; [|constructor]. cbn [b1 bvals i_ok].
  assert (F0 : is_finite (dZ 0) = true) by (apply dZ_fin; lia). assert (F1 : is_finite (dZ z) = true) by (apply dZ_fin; lia).
  split; [|split].
  - apply dle_spec; [apply dZ_nan; lia|apply dZ_nan; lia|]. rewrite !dZ_ext by lia. cbn [ext_le]. apply IZR_le. lia.
  - destruct (dZ 0) as [|[]| |]; auto; discriminate.
  - destruct (dZ z) as [|[]| |]; auto; discriminate.
Qed.
Lemma b1_vars z v : In v (bvars (b1 z)) <-> In v (fvF fa1). Proof. cbn. tauto. Qed.
Lemma fresh1 : fresh_ids (fvF fa1) 10.
Proof. split; [intros v [<-|[]]; cbn; lia|]. intros v w [<-|[]] [<-|[]] _. reflexivity. Qed.
Lemma b1_between z x : (0 <= z <= 2 ^ 53)%Z -> between (ilb (b_getv (b1 z) vx)) (iub (b_getv (b1 z) vx)) x <-> (0 <= x <= IZR z)%R.
Proof. intros H. change (b_getv (b1 z) vx) with (IV (dZ 0) (dZ z)). cbn [ilb iub]. unfold between. rewrite !dZ_ext by lia. cbn [ext_le]. tauto. Qed.
Lemma nested1 : nested (fvF fa1) default_dm [b1 4; b1 1].
Proof.
  cbn [nested]. assert (N : forall z, NoDup (bvars (b1 z))) by (intros z; repeat constructor; intros []).
  assert (D0 : forall z, (0 <= z <= 10)%Z -> forall v, In v (bvars (b1 z)) -> dom_ok v (ilb (b_getv (b1 z) v)) (iub (b_getv (b1 z) v))).
  { intros z Hz v [<-|[]]. change (b_getv (b1 z) vx) with (IV (dZ 0) (dZ z)). cbn [ilb iub]. apply dom_ok_of; lia. }
  split; [apply N|]. split; [intros v Hv; apply (b1_vars 4), Hv|]. split; [apply D0; lia|]. split; [intros v x [<-|[]] _; exact I|].
  split; [apply N|]. split; [intros v Hv; apply (b1_vars 1), Hv|]. split; [apply D0; lia|]. split; [|exact I].
  intros v x [<-|[]] Hx. unfold box_dm. cbn [bvars b1 mem_var existsb]. change (var_eqb vx vx || false) with true. cbn match. apply (b1_between 4); [lia|]. apply b1_between in Hx; [|lia]. lra.
Qed.
Definition at2 (a b : R) : env := fun v => if var_eqb v vx then a else if var_eqb v vy then b else 0%R.
Lemma at2_typed a b : well_typed (at2 a b).
Proof.
  intros v. unfold at2. destruct (var_eqb v vx) eqn:E; [apply var_eqb_eq in E; subst; exact I|]. destruct (var_eqb v vy) eqn:E'; [apply var_eqb_eq in E'; subst; exact I|].
  destruct (vty v); cbn; auto. exists 0%Z. reflexivity.
Qed.
Lemma at2_box a b z : (0 <= z <= 2 ^ 53)%Z -> (0 <= a <= IZR z)%R -> in_box (at2 a b) (b1 z).
Proof.
  intros Hz Ha. split; [reflexivity|]. intros i v Hi. destruct i as [|i]; cbn in Hi; [|destruct i; discriminate]. injection Hi as <-. unfold b_get. cbn [b1 bvals nth imem]. rewrite !dZ_ext by lia. exact Ha.
Qed.
Lemma neg1_regular : regular Mstd stdD neg1 (at2 1 1).
Proof.
  assert (Y : forall d, is_finite d = true -> ~ gap d 1).
  { intros d F. apply (gap_dbl d (dZ 1)); [exact F|apply dZ_nan; lia|apply dZ_ext; lia]. }
  unfold regular, neg1. cbn [regF fold_right regE]. split; [|split; [|split]]; try exact I.
  - split; [split; exact I|]. intros _. cbn [consts_of evalE]. change (at2 1 1 vy) with 1%R. split; [|intros c []]. intros c [<-|[]]. apply Y. vm_compute. reflexivity.
  - split; [split; exact I|]. intros _. cbn [consts_of evalE]. change (at2 1 1 vy) with 1%R. split; [|intros c []]. intros c [<-|[]]. apply Y. vm_compute. reflexivity.
  - split; [split; [split; [exact I|split; exact I]|exact I]|]. intros _. cbn [consts_of evalE fold_right]. split; [|intros c []].
    intros c [<-|[]]. change (at2 1 1 vx) with 1%R. change (at2 1 1 vy) with 1%R. rewrite !dZ_R by lia. rewrite (mkd_R (-1) (-2)); [|lia|lia|vm_compute; reflexivity|vm_compute; reflexivity].
    apply (gap_dbl (dZ 3) (mkd 7 (-2))); [apply dZ_fin; lia|vm_compute; reflexivity|].
    rewrite finite_d2e by (vm_compute; reflexivity). rewrite (mkd_R 7 (-2)); [|lia|lia|vm_compute; reflexivity|vm_compute; reflexivity]. f_equal. cbn. lra.
Qed.
Lemma body1_defined M D rho : defF M D body1 rho. Proof. cbn. tauto. Qed.
Lemma body1_holds uf rc a b : holds (std uf rc) body1 (at2 a b) <-> (b >= 2 \/ b <= -1 \/ a + b <= 3)%R.
Proof.
  cbn [body1 holds fold_right yc relR evalE xy]. rewrite !dZ_R by lia. change (at2 a b vx) with a. change (at2 a b vy) with b. unfold dzero. cbn [B2R]. 
  split; intros H; intuition lra.
Qed.
Lemma fa1_false uf rc a a' b : (b < 2 -> -1 < b -> a + b > 3 -> ~ holds (std uf rc) fa1 (at2 a a'))%R.
Proof.
  intros H1 H2 H3 H. cbn [fa1 holds] in H. apply (body1_holds uf rc a b) in H; [lra| |].
  - intros v Hv. unfold at2. destruct (var_eqb v vx); [reflexivity|]. destruct (var_eqb v vy) eqn:E; [apply var_eqb_eq in E; subst; exfalso; apply Hv; left; reflexivity|reflexivity].
  - intros v [<-|[]]. exact I.
Qed.
(** Both boxes of the history meet the hypotheses, and the point (1, 1) those of the conclusion. *)
Lemma fa1_meets : exists t ops c0 c1 rs,
  fe_setup (fun a _ => a) 20 20 fa1 quarter = (Val ops, t) /\ DeltaStrengthen (fun a _ => a) 20 20 (mk_not body1) quarter = (Val neg1, t) /\ Forall (exact Mstd) t /\
  run_ex ex_T ops = Some (c0, []) /\ admissible Mstd stdD nofold kplain 10 ops [] (p_empty, []) /\ ints_ok false ops /\
  (forall b, In b [b1 4; b1 1] -> box_ok b /\ forall v, In v (bvars b) <-> In v (fvF fa1)) /\ nested (fvF fa1) default_dm [b1 4; b1 1] /\
  evals_ex fa1 [b1 4; b1 1] c0 = Some (c1, rs) /\ map fst rs = [UNKNOWN; VALID] /\
  well_typed (at2 1 1) /\ in_box (at2 1 1) (b1 1) /\ defF Mstd stdD body1 (at2 1 1) /\ regular Mstd stdD neg1 (at2 1 1).
Proof.
  destruct (gives_f_ok (fun _ _ => 0%R) (fun lb _ => B2R lb) _ _ (neg1_given (fun a _ => a))) as (t & Ed & Ht). destruct (evs_gen _ _ _ fa1_runs) as (c0 & c1 & rs & E0 & E1 & E2).
  exists t, fops1, c0, c1, rs. split; [exact (fa1_setup _ t Ed)|]. split; [exact Ed|]. split; [exact Ht|]. split; [exact E0|]. split; [exact fops1_adm|]. split; [exact (fops1_ints false)|].
  split. { intros b [<-|[<-|[]]]; (split; [apply b1_ok; lia|apply b1_vars]). }
  split; [exact nested1|]. split; [exact E1|]. split; [exact E2|]. split; [apply at2_typed|]. split; [apply at2_box; [lia|lra]|]. split; [apply body1_defined|exact neg1_regular].
Qed.

(** ** Wrong VALID *)
Lemma fa1_life bs l : evs_are (run_ex ex_T fops1) (evals_ex fa1 bs) l = true ->
  exists t c rs, fe_life nofold kplain brute ex_T ibex_mid half (fun a _ => a) 20 20 icp_ev fa1 quarter 10 20 bs = (Val (Some (c, rs)), t) /\ Forall (exact Mstd) t /\ map fst rs = l.
Proof.
  intros H. destruct (gives_f_ok (fun _ _ => 0%R) (fun lb _ => B2R lb) _ _ (neg1_given (fun a _ => a))) as (t & Ed & Ht). destruct (evs_gen _ _ _ H) as (c0 & c1 & rs & E0 & E1 & E2).
  exists t, c1, rs. split; [|auto]. unfold fe_life. rewrite (fa1_setup _ t Ed). cbn [ExprAlg.bind ret]. unfold run_ex in E0. rewrite E0. unfold evals_ex in E1. rewrite E1. rewrite app_nil_r. reflexivity.
Qed.
(** x in [0,1], then x in [0,4] *)
Lemma grown_runs : evs_are (run_ex ex_T fops1) (evals_ex fa1 [b1 1; b1 4]) [VALID; VALID] = true. Proof. vm_compute. reflexivity. Qed.
(** x = 3, with a second variable z in [0,1] in the box *)
Definition b2 : box := mkBox [vx; vz] [IV (dZ 3) (dZ 3); IV (dZ 0) (dZ 1)].
Lemma other_runs : evs_are (run_ex ex_T fops1) (evals_ex fa1 [b2]) [VALID] = true. Proof. vm_compute. reflexivity. Qed.
(** x = 5/4 *)
Definition bq : box := mkBox [vx] [IV (mkd 5 (-2)) (mkd 5 (-2))].
Lemma near_runs : evs_are (run_ex ex_T fops1) (evals_ex fa1 [bq]) [VALID] = true. Proof. vm_compute. reflexivity. Qed.
Lemma grown_wrong : exists t c rs, fe_life nofold kplain brute ex_T ibex_mid half (fun a _ => a) 20 20 icp_ev fa1 quarter 10 20 [b1 1; b1 4] = (Val (Some (c, rs)), t) /\ Forall (exact Mstd) t /\
  map fst rs = [VALID; VALID] /\ exists rho, well_typed rho /\ in_box rho (b1 4) /\ ~ holds Mstd fa1 rho.
Proof.
  destruct (fa1_life _ _ grown_runs) as (t & c & rs & E & Ht & Er). exists t, c, rs. split; [exact E|]. split; [exact Ht|]. split; [exact Er|].
  exists (at2 4 0). split; [apply at2_typed|]. split; [apply at2_box; [lia|lra]|]. apply (fa1_false _ _ _ _ 1); lra.
Qed.
Lemma other_wrong : exists t c rs, fe_life nofold kplain brute ex_T ibex_mid half (fun a _ => a) 20 20 icp_ev fa1 quarter 10 20 [b2] = (Val (Some (c, rs)), t) /\ Forall (exact Mstd) t /\
  map fst rs = [VALID] /\ exists rho, well_typed rho /\ in_box rho b2 /\ ~ holds Mstd fa1 rho.
Proof.
  destruct (fa1_life _ _ other_runs) as (t & c & rs & E & Ht & Er). exists t, c, rs. split; [exact E|]. split; [exact Ht|]. split; [exact Er|].
  exists (at2 3 0). split; [apply at2_typed|]. split; [|apply (fa1_false _ _ _ _ 1); lra].
  split; [reflexivity|]. intros i v Hi. destruct i as [|[|i]]; cbn in Hi; [| |destruct i; discriminate]; injection Hi as <-; unfold b_get; cbn [b2 bvals nth imem]; rewrite !dZ_ext by lia; cbn [ext_le].
  - change (at2 3 0 vx) with 3%R. lra.
  - change (at2 3 0 vz) with 0%R. lra.
Qed.
Lemma near_wrong : exists t c rs, fe_life nofold kplain brute ex_T ibex_mid half (fun a _ => a) 20 20 icp_ev fa1 quarter 10 20 [bq] = (Val (Some (c, rs)), t) /\ Forall (exact Mstd) t /\
  map fst rs = [VALID] /\ exists rho, well_typed rho /\ in_box rho bq /\ ~ holds Mstd fa1 rho.
Proof.
  destruct (fa1_life _ _ near_runs) as (t & c & rs & E & Ht & Er). exists t, c, rs. split; [exact E|]. split; [exact Ht|]. split; [exact Er|].
  exists (at2 (5 / 4) 0). split; [apply at2_typed|]. split; [|apply (fa1_false _ _ _ _ (15 / 8)); lra].
  split; [reflexivity|]. intros i v Hi. destruct i as [|i]; cbn in Hi; [|destruct i; discriminate]. injection Hi as <-. unfold b_get. cbn [bq bvals nth imem].
  assert (E5 : d2e (mkd 5 (-2)) = Fin (5 / 4)). { rewrite finite_d2e by (vm_compute; reflexivity). rewrite mkd_R; [f_equal; cbn; lra|lia|lia|vm_compute; reflexivity|vm_compute; reflexivity]. }
  rewrite E5. cbn [ext_le]. change (at2 (5 / 4) 0 vx) with (5 / 4)%R. lra.
Qed.

(** ** Pruning *)
(** For all y: y >= 2 or y <= -1 or x <= 3 *)
Definition body2 : formula := FOr [yc RGeq 2; yc RLeq (-1); xc RLeq 3].
Definition fa2 : formula := FForall [vy] body2.
Definition fops2 : list cop := [ODeclare vx true; ODeclare vy true; OAssert (FRel RLt (EVar vy) (EConst (mkd 7 (-2)))); OAssert (FRel RGt (EVar vy) (EConst (mkd (-3) (-2)))); OAssert (FRel RGt (EVar vx) (EConst (mkd 13 (-2))))].
Definition ival_eqb (a b : ival) : bool := match a, b with IEmpty, IEmpty => true | IV l u, IV l' u' => dbl_eqb l l' && dbl_eqb u u' | _, _ => false end.
Lemma ival_eqb_eq a b : ival_eqb a b = true -> a = b.
Proof. destruct a, b; cbn [ival_eqb]; try discriminate; auto. intros H. apply andb_true_iff in H. destruct H as [H1 H2]. apply dbl_eqb_eq in H1, H2. congruence. Qed.
Definition box_eqb (a b : box) : bool := list_eqb var_eqb (bvars a) (bvars b) && list_eqb ival_eqb (bvals a) (bvals b).
Lemma list_eqb_eq' {X} (e : X -> X -> bool) l : (forall a b, e a b = true -> a = b) -> forall m, list_eqb e l m = true -> l = m.
Proof. intros H. induction l as [|a l IH]; intros [|b m]; cbn [list_eqb]; try discriminate; auto. intros E. apply andb_true_iff in E. destruct E as [E1 E2]. f_equal; [now apply H|auto]. Qed.
Lemma box_eqb_eq a b : box_eqb a b = true -> a = b.
Proof.
  destruct a, b. unfold box_eqb. cbn [Interval.bvars Interval.bvals]. intros H. apply andb_true_iff in H. destruct H as [H1 H2]. apply (list_eqb_eq' _ _ (fun a b => proj1 (var_eqb_eq a b))) in H1. apply (list_eqb_eq' _ _ ival_eqb_eq) in H2. congruence.
Qed.
Definition fullb (b : box) : bool := forallb (fun i => negb (i_empty i)) (bvals b).
Definition prunes_are (s : comp (list cop * option contractor)) (runf : list cop -> option (ctx * list (option box))) (prs : contractor -> ctx -> option (ctx * list box)) (ops : list cop) (full : bool) (bs : list box) : bool :=
  match s with
  | (Val (o, Some ctc), t) => cops_eqb o ops && forallb stepb t &&
      match runf o with
      | Some (c, []) => match cx_box c with Some b0 => Bool.eqb (fullb b0) full | None => false end && match prs ctc c with Some (_, l) => list_eqb box_eqb l bs | None => false end
      | _ => false
      end
  | _ => false
  end.
Lemma prunes_gen s runf prs ops full bs : prunes_are s runf prs ops full bs = true -> exists ctc t c0 b0 c1,
  s = (Val (ops, Some ctc), t) /\ Forall (exact Mstd) t /\ runf ops = Some (c0, []) /\ cx_box c0 = Some b0 /\ (full = true -> b_full b0) /\ prs ctc c0 = Some (c1, bs).
Proof.
  unfold prunes_are. destruct s as [[[o [ctc|]]| | |] t]; try discriminate. intros H. apply andb_true_iff in H. destruct H as [H H2]. apply andb_true_iff in H. destruct H as [H0 H1].
  apply cops_eqb_eq in H0. subst o. destruct (runf ops) as [[c0 [|? ?]]|] eqn:E; try discriminate. apply andb_true_iff in H2. destruct H2 as [H2 H3].
  destruct (cx_box c0) as [b0|] eqn:Eb; [|discriminate]. destruct (prs ctc c0) as [[c1 l]|] eqn:Ep; [|discriminate]. apply (list_eqb_eq' _ _ box_eqb_eq) in H3. subst l.
  exists ctc, t, c0, b0, c1. split; [reflexivity|]. split; [now apply (stepsb_exact (fun _ _ => 0%R) (fun lb _ => B2R lb))|]. split; [reflexivity|]. split; [exact Eb|]. split; [|exact Ep].
  intros ->. apply Bool.eqb_prop in H2. unfold b_full. apply Forall_forall. intros i Hi. unfold fullb in H2. rewrite forallb_forall in H2. apply negb_true_iff, H2, Hi.
Qed.
Definition setup_ex (f : formula) : comp (list cop * option contractor) := fc_setup nofold (fun a _ => a) 20 20 plain_sub plain_neg 10 false f [vx] quarter.
Definition prunes_ex (f : formula) (bs : list box) (ctc : contractor) (c : ctx) : option (ctx * list box) :=
  fc_prunes nofold kplain brute ex_T ibex_mid half lib_orc default_term 20 (fun b => b) f ctc 20 20 bs c.
Definition bx (a b : Z) : box := mkBox [vx] [IV (dZ a) (dZ b)].
Definition bx_none : box := mkBox [vx] [IEmpty].
(** [0,4] becomes [0,3], [0,1] stays, [3,4] becomes [3,3], [4,5] becomes empty. *)
Lemma fa2_runs : prunes_are (setup_ex fa2) (run_ex ex_T) (prunes_ex fa2 [bx 0 4; bx 0 1; bx 3 4; bx 4 5]) fops2 true [bx 0 3; bx 0 1; bx 3 3; bx_none] = true.
Proof. vm_compute. reflexivity. Qed.
Lemma fops2_adm : admissible Mstd stdD nofold kplain 10 fops2 [] (p_empty, []).
Proof.
  unfold fops2. cbn [admissible op_ok p_step news_step fst snd admissible_q op_ok_q].
  repeat match goal with
  | |- _ /\ _ => split
  | |- True => exact I
  | |- known _ _ _ => left; cbn; lia
  | |- ite_exact _ _ _ _ _ => apply plain_ite
  | |- wfF _ _ _ _ => cbn [wfF wfE fold_right]
  | |- declared _ _ => cbn; auto 10
  | |- is_finite _ = true => vm_compute; reflexivity
  | |- vty _ <> _ => discriminate
  end.
Qed.
Lemma bx_ok a b : (0 <= a <= b)%Z -> (b <= 2 ^ 53)%Z -> box_ok (bx a b) /\ b_full (bx a b) /\ bvars (bx a b) = [vx].
Proof.
  intros H H'. split; [|split; [repeat constructor|reflexivity]]. split; [repeat constructor; intros []|]. split; [reflexivity|]. constructor; [|constructor]. cbn [bx bvals i_ok].
  assert (F0 : is_finite (dZ a) = true) by (apply dZ_fin; lia). assert (F1 : is_finite (dZ b) = true) by (apply dZ_fin; lia).
  split; [|split].
  - apply dle_spec; [apply dZ_nan; lia|apply dZ_nan; lia|]. rewrite !dZ_ext by lia. cbn [ext_le]. apply IZR_le. lia.
  - destruct (dZ a) as [|[]| |]; auto; discriminate.
  - destruct (dZ b) as [|[]| |]; auto; discriminate.
Qed.
Lemma fa2_meets : exists ctc t c0 b0 c1,
  NoDup ([vx] ++ [vy]) /\ (forall v, In v ([vx] ++ [vy]) -> vty v = CONTINUOUS) /\ unfolded nofold body2 /\ consts_finite body2 /\ (forall v, In v (fvF body2) -> In v ([vx] ++ [vy])) /\
  refine_ok (fun b => b) ([vx] ++ [vy]) /\
  setup_ex fa2 = (Val (fops2, Some ctc), t) /\ run_ex ex_T fops2 = Some (c0, []) /\ admissible Mstd stdD nofold kplain 10 fops2 [] (p_empty, []) /\ cx_box c0 = Some b0 /\ b_full b0 /\
  (forall b, In b [bx 0 4; bx 0 1; bx 3 4; bx 4 5] -> box_ok b /\ b_full b /\ bvars b = [vx]) /\
  prunes_ex fa2 [bx 0 4; bx 0 1; bx 3 4; bx 4 5] ctc c0 = Some (c1, [bx 0 3; bx 0 1; bx 3 3; bx_none]).
Proof.
  destruct (prunes_gen _ _ _ _ _ _ fa2_runs) as (ctc & t & c0 & b0 & c1 & E1 & _ & E2 & E3 & E4 & E5). exists ctc, t, c0, b0, c1.
  split; [repeat constructor; cbn; intuition discriminate|]. split; [intros v [<-|[<-|[]]]; reflexivity|].
  split; [repeat constructor; intros f [<-|[<-|[<-|[]]]]; constructor; reflexivity|].
  split; [constructor; intros f [<-|[<-|[<-|[]]]]; constructor; split; cbn; auto; apply dZ_fin; lia|].
  split; [intros v Hv; cbn in *; tauto|]. split; [intros ce H1 H2 H3; auto|]. split; [exact E1|]. split; [exact E2|]. split; [exact fops2_adm|]. split; [exact E3|]. split; [exact (E4 eq_refl)|].
  split; [|exact E5]. intros b [<-|[<-|[<-|[<-|[]]]]]; apply bx_ok; lia.
Qed.
(** For all y: y >= 0 or y <= 1, which is true; the box becomes empty. *)
Definition fa3 : formula := FForall [vy] (FOr [yc RGeq 0; yc RLeq 1]).
Definition fops3 : list cop := [ODeclare vx true; ODeclare vy true; OAssert (FRel RLt (EVar vy) (EConst (mkd (-1) (-2)))); OAssert (FRel RGt (EVar vy) (EConst (mkd 5 (-2))))].
Lemma fa3_runs : prunes_are (setup_ex fa3) (run_ex ex_T) (prunes_ex fa3 [bx 0 4]) fops3 false [bx_none] = true.
Proof. vm_compute. reflexivity. Qed.
Lemma fa3_wrong : exists t c, fc_life nofold kplain brute ex_T ibex_mid half (fun a _ => a) 20 20 plain_sub plain_neg 10 lib_orc default_term 20 false (fun b => b) fa3 [vx] quarter 10 20 20 [bx 0 4] =
    (Val (Some (c, [bx_none])), t) /\ Forall (exact Mstd) t /\ forall rho, holds Mstd fa3 rho.
Proof.
  destruct (prunes_gen _ _ _ _ _ _ fa3_runs) as (ctc & t & c0 & b0 & c1 & E1 & Ht & E2 & E3 & E4 & E5). exists t, c1. split; [|split; [exact Ht|]].
  - unfold fc_life. unfold setup_ex in E1. rewrite E1. cbn [ExprAlg.bind ret fst snd IEval.bind]. unfold run_ex in E2. rewrite E2. unfold prunes_ex in E5. rewrite E5. rewrite app_nil_r. reflexivity.
  - intros rho. cbn [fa3 holds fold_right yc relR evalE]. intros rho' _ _. rewrite !dZ_R by lia. destruct (Rle_dec 0 (rho' vy)); [left; lra|right; left; lra].
Qed.
