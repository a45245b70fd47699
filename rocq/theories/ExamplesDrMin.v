(** A .dr problem with a cost. *)
From Coq Require Import ZArith Reals Lra Lia List Bool.
From Flocq Require Import Core.Core IEEE754.BinarySingleNaN.
From Verif Require Import Dbl DblProofs Syntax Sem SemProofs FormulaCons Interval IntervalProofs IEval IEvalProofs StdInterp MathConv MathConvProofs ExprAlg SpecAlg SpecForm PredAbs
  Contr Icp IcpTop Filter Theory Regular Wff IteElim SpecIte Sat Scoped Context SpecCtx SpecWeak SpecFaith Smt2 Minim Dr SpecDr SpecDrMin Api SpecApi
  ExamplesForm ExamplesBox ExamplesEval ExamplesContr ExamplesIcp ExamplesTheory ExamplesIte ExamplesAlg ExamplesCtx ExamplesSmt2 ExamplesDr.
Import ListNotations.
#[local] Opaque dZ mkd.
Local Notation R := Rdefinitions.R.

(** [var: [0, 10] x; [0, 10] y; ctr: x + y >= 3; x >= 1; cost: x + 2 * y;] *)
Definition dr4 : dfile := mkDr [mkDecl (nume 0) (Some (nume 10)) 7; mkDecl (nume 0) (Some (nume 10)) 8]
  [DRel DGe (DAdd (DId 7) (DId 8)) (nume 3); DRel DGe (DId 7) (nume 1)] [DAdd (DId 7) (DMul (nume 2) (DId 8))].
Definition dr4_calls : list cop :=
  [ONew dx; ODeclareDom dx (dZ 0) (dZ 10) true; ONew dy; ODeclareDom dy (dZ 0) (dZ 10) true;
   OAssert (FRel RGeq (EAdd dzero [(EVar dx, dZ 1); (EVar dy, dZ 1)]) (EConst (dZ 3)));
   OAssert (FRel RGeq (EVar dx) (EConst (dZ 1)))].
Lemma dr4_poses fpow : calls_are (dr_calls fpow 20 evlx dr4 10) dr4_calls 1 = true. Proof. vm_compute. reflexivity. Qed.
(** The lines printed, if every step was exact *)
Definition ekinds (c : comp (option (list dline))) : option (list nat) := match c with (_, t) => if forallb stepb t then kinds c else None end.
Lemma dr4_prints fpow : ekinds (dr_run fpow 20 evlx nofold kplain brute (toyT half) ibex_mid half (fun _ _ => i_all) dr4 true 10 20) = Some [1; 2; 3]. Proof. vm_compute. reflexivity. Qed.
Lemma ekinds_ok uf rc c l : ekinds c = Some l -> exists lines t, c = (Val (Some lines), t) /\ length lines = length l /\ Forall (exact (std uf rc)) t.
Proof.
  destruct c as [r t]. unfold ekinds. destruct (forallb stepb t) eqn:E; [|discriminate]. unfold kinds. destruct r as [[ls|]| | |]; try discriminate. intros H. assert (X : l = map (fun x => match x with OutUnsat => 0 | OutDelta _ => 1 | OutModel _ => 2 | OutMin _ _ => 3 end) ls) by congruence.
  exists ls, t. split; [reflexivity|]. split; [rewrite X, map_length; reflexivity|]. now apply stepsb_exact.
Qed.
Definition V4 (a b : R) (x : nat) : R := match x with 7 => a | 8 => b | _ => 0%R end.
Definition bs4 : list (dbl * dbl) := [(dZ 0, dZ 10); (dZ 0, dZ 10)].
Lemma nf_folds fpow n : folds fpow n nofold. Proof. intros a b c H. discriminate H. Qed.
Lemma dr4_lits : dr_lits dr4.
Proof. split; cbn [dr4 dr_ctr dr_cost In]; intros f Hf; repeat destruct Hf as [<-|Hf]; try destruct Hf; cbn [form_lits exp_lits nume]; repeat split; apply dZ_fin; lia. Qed.
Lemma dr4_exact : Forall exact_op dr4_calls.
Proof.
  unfold dr4_calls. repeat (constructor; [try exact I|]); [| |constructor].
  - intros o v cs E. discriminate E.
  - intros o v cs E. cbn [bound_lit consts_of] in E. right. split; [exists (dZ 1); congruence|]. intros C. discriminate C.
Qed.
Lemma dr4_total uf rc : dr_total (std uf rc) stdD dr4 bs4.
Proof.
  intros V _. split; cbn [dr4 dr_ctr dr_cost In]; intros f Hf; repeat destruct Hf as [<-|Hf]; try destruct Hf; cbn [fdef ddef nume]; repeat split; apply dZ_fin; lia.
Qed.
Lemma dr4_sol uf rc V : dr_solution (std uf rc) stdD dr4 bs4 V <-> (0 <= V 7%nat <= 10)%R /\ (0 <= V 8%nat <= 10)%R /\ (V 7%nat + V 8%nat >= 3)%R /\ (V 7%nat >= 1)%R.
Proof.
  unfold dr_solution. cbn [dr4 dr_vars dr_ctr].
  assert (Bt : forall x, between (dZ 0) (dZ 10) x <-> (0 <= x <= 10)%R) by (intros x; unfold between; rewrite !dZ_ext by lia; cbn; tauto).
  split.
  - intros [H1 H2]. inversion H1 as [|? ? ? ? X1 H3]; subst. inversion H3 as [|? ? ? ? X2 _]; subst. cbn [fst snd dd_name] in *. apply Bt in X1, X2.
    pose proof (proj2 (H2 _ (or_introl eq_refl))) as A1. pose proof (proj2 (H2 _ (or_intror (or_introl eq_refl)))) as A2. cbn [dtrue drelR dval nume] in A1, A2. rewrite !dZ_R in A1, A2 by lia. auto.
  - intros (H1 & H2 & H3 & H4). split; [constructor; [apply Bt; exact H1|constructor; [apply Bt; exact H2|constructor]]|]. intros f Hf. split.
    + cbn [In] in Hf. repeat destruct Hf as [<-|Hf]; try destruct Hf; cbn [fdef ddef nume]; repeat split; apply dZ_fin; lia.
    + cbn [In] in Hf. repeat destruct Hf as [<-|Hf]; try destruct Hf; cbn [dtrue drelR dval nume]; rewrite !dZ_R by lia; assumption.
Qed.
Lemma dr4_cost uf rc V g : In g (dr_cost dr4) -> dval (std uf rc) V g = (V 7%nat + 2 * V 8%nat)%R.
Proof. cbn [dr4 dr_cost In]. intros [<-|[]]. cbn [dval nume]. rewrite dZ_R by lia. reflexivity. Qed.
Lemma dr4_min uf rc : dr_minimum (std uf rc) stdD dr4 bs4 (V4 3 0) /\ dr_solution (std uf rc) stdD dr4 bs4 (V4 1 2) /\ ~ dr_minimum (std uf rc) stdD dr4 bs4 (V4 1 2).
Proof.
  assert (In4 : In (DAdd (DId 7) (DMul (nume 2) (DId 8))) (dr_cost dr4)) by (left; reflexivity).
  assert (S3 : dr_solution (std uf rc) stdD dr4 bs4 (V4 3 0)) by (apply dr4_sol; cbn [V4]; lra).
  split; [split; [exact S3|]|split].
  - intros (V' & S' & L). specialize (L _ In4). rewrite !(dr4_cost uf rc _ _ In4) in L. apply dr4_sol in S'. cbn [V4] in L. lra.
  - apply dr4_sol. cbn [V4]. lra.
  - intros [_ N]. apply N. exists (V4 3 0). split; [exact S3|]. intros g Hg. rewrite !(dr4_cost uf rc _ g Hg). cbn [V4]. lra.
Qed.
Lemma dr4_meets : forall uf rc fpow, folds fpow 20 nofold /\
  (exists lines t, dr_run fpow 20 evlx nofold kplain brute (toyT half) ibex_mid half (fun _ _ => i_all) dr4 true 10 20 = (Val (Some lines), t) /\ length lines = 3 /\ Forall (exact (std uf rc)) t) /\
  dr_cost dr4 <> [] /\ dr_vars dr4 <> [] /\ NoDup (map dd_name (dr_vars dr4)) /\ dr_lits dr4 /\
  (forall ops gs t', dr_calls fpow 20 evlx dr4 10 = (Val (ops, gs), t') -> Forall exact_op ops) /\ dr_total (std uf rc) stdD dr4 bs4 /\
  dr_minimum (std uf rc) stdD dr4 bs4 (V4 3 0) /\ dr_solution (std uf rc) stdD dr4 bs4 (V4 1 2) /\ ~ dr_minimum (std uf rc) stdD dr4 bs4 (V4 1 2).
Proof.
  intros uf rc fpow. split; [apply nf_folds|]. split; [exact (ekinds_ok uf rc _ _ (dr4_prints fpow))|]. split; [discriminate|]. split; [discriminate|].
  split; [cbn; repeat constructor; cbn; intuition discriminate|]. split; [exact dr4_lits|]. split.
  - intros ops gs t' E. destruct (calls_are_ok uf rc _ _ _ (dr4_poses fpow)) as (gs' & t0 & E0 & _). assert (ops = dr4_calls) by congruence. subst ops. exact dr4_exact.
  - split; [apply dr4_total|]. apply dr4_min.
Qed.

(** Without costs: unsat ([dr1]) and delta-sat *)
Definition dr5 : dfile := mkDr (dr_vars dr1) (tl (dr_ctr dr1)) [].
Lemma lits15 : dr_lits dr1 /\ dr_lits dr5.
Proof. split; split; cbn [dr1 dr5 dr_ctr dr_cost tl In]; intros f Hf; repeat destruct Hf as [<-|Hf]; try destruct Hf; cbn [form_lits exp_lits nume]; repeat split; apply dZ_fin; lia. Qed.
Lemma dr1_eprints fpow : ekinds (dr_run fpow 20 evlx nofold kplain brute (ex_TT half) ibex_mid half (fun _ _ => i_all) dr1 true 10 20) = Some [0]. Proof. vm_compute. reflexivity. Qed.
Lemma dr5_eprints fpow : ekinds (dr_run fpow 20 evlx nofold kplain brute (ex_TT half) ibex_mid half (fun _ _ => i_all) dr5 true 10 20) = Some [1; 2]. Proof. vm_compute. reflexivity. Qed.
Lemma files_meet : forall fpow, dr_lits dr1 /\ dr_lits dr5 /\ folds fpow 20 nofold /\ dr_vars dr5 <> [] /\ dr_ctr dr5 <> [] /\
  ekinds (dr_run fpow 20 evlx nofold kplain brute (ex_TT half) ibex_mid half (fun _ _ => i_all) dr1 true 10 20) = Some [0] /\
  ekinds (dr_run fpow 20 evlx nofold kplain brute (ex_TT half) ibex_mid half (fun _ _ => i_all) dr5 true 10 20) = Some [1; 2].
Proof.
  intros fpow. split; [exact (proj1 lits15)|]. split; [exact (proj2 lits15)|]. split; [apply nf_folds|]. split; [discriminate|]. split; [discriminate|].
  split; [exact (dr1_eprints fpow)|exact (dr5_eprints fpow)].
Qed.
