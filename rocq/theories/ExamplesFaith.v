(** Optimization over the assertions of a history: an optimum and a point that is none. *)
From Coq Require Import ZArith Reals Lra Lia List Bool.
From Flocq Require Import Core.Core IEEE754.BinarySingleNaN.
From Verif Require Import Dbl DblProofs Syntax Sem SemProofs FormulaCons Interval IntervalProofs IEval IEvalProofs StdInterp MathConv MathConvProofs ExprAlg SpecAlg SpecIte SmtOcc
  Filter Regular Wff Scoped IteElim SpecForm Sat Context SpecCtx SpecWeak SpecFaith Minim SpecMin MinimProofs ExamplesForm ExamplesBox ExamplesIte ExamplesAlg ExamplesCtx ExamplesDelta ExamplesMin Api SpecApi ExamplesDr.
Import ListNotations.
Local Notation R := Rdefinitions.R.
#[local] Opaque dZ mkd.

(** x, y in [0,10]; 2 <= x; i an integer with i > 0; x + y >= 3; minimize x + 2 y *)
Definition sum3 : formula := FRel RGeq (EAdd dzero [(ex_x, dZ 1); (ex_y, dZ 1)]) (EConst (dZ 3)).
Definition ipos : formula := FRel RGt (EVar vi) (EConst (dZ 0)).
Definition fops : list cop := [ODeclareDom vx (dZ 0) (dZ 10) true; ODeclareDom vy (dZ 0) (dZ 10) true; ODeclare vi true; OAssert (xc RGeq 2); OPush; OAssert (xc RGeq 5); OPop; OAssert ipos; OAssert sum3].
Lemma fops_adm : admissible Mstd stdD nofold kplain 10 fops [] (p_empty, []).
Proof.
  assert (W : forall z, (Z.abs z <= 2 ^ 53)%Z -> is_finite (dZ z) = true) by exact dZ_fin.
  unfold fops, sum3, ipos, xc, ex_x, ex_y. cbn [admissible op_ok p_step news_step fst snd admissible_q op_ok_q].
  repeat match goal with
  | |- _ /\ _ => split
  | |- True => exact I
  | |- known _ _ _ => left; cbn; lia
  | |- dom_ok _ _ _ => apply dom_ok_of; lia
  | |- declared _ _ -> redomain_ok _ _ _ _ => intros _; left; reflexivity
  | |- ite_exact _ _ _ _ _ => apply plain_ite
  | |- wfF _ _ _ _ => cbn [wfF wfE fold_right]
  | |- declared _ _ => cbn; auto 10
  | |- is_finite dzero = true => reflexivity
  | |- is_finite (dZ _) = true => apply W; lia
  | |- vty _ = _ => reflexivity
  | |- vty _ <> _ => discriminate
  end.
Qed.
Lemma fops_delta : delta_ops nofold fops (p_empty, []).
Proof. unfold fops, sum3, ipos, xc, ex_x, ex_y. cbn [delta_ops delta_op p_step fst snd]. repeat split; try apply unf_any; try discriminate. Qed.
Lemma fops_exact : Forall exact_op fops.
Proof.
  assert (X : forall o v c, (match o with RGt | RLt => vty v <> CONTINUOUS | _ => True end) -> exact_op (OAssert (FRel o (EVar v) (EConst c)))).
  { intros o v c H o' v' cs E. cbn [bound_lit consts_of] in E. assert (v = v') by congruence. subst v'. right. split; [exists c; congruence|]. intros S. destruct o; try discriminate S; exact H. }
  unfold fops, ipos, xc. repeat (apply Forall_cons; [first [exact I|apply X; try exact I; discriminate|idtac]|]); [|apply Forall_nil].
  intros o v cs E. discriminate E.
Qed.
Lemma fops_current : current fops = {| p_doms := [(vx, between (dZ 0) (dZ 10)); (vy, between (dZ 0) (dZ 10)); (vi, dom0 INTEGER)]; p_asserts := [xc RGeq 2; ipos; sum3] |}.
Proof. reflexivity. Qed.
Lemma fops_posed : posed_problem Mstd stdD (current fops) [mobj].
Proof.
  rewrite fops_current. unfold posed_problem, declared. cbn [p_doms p_asserts map fst]. split; [|split; [|split]].
  - intros v w [<-|[<-|[<-|[]]]] [<-|[<-|[<-|[]]]]; cbn; congruence.
  - intros f [<-|[<-|[<-|[]]]]; cbn; intuition discriminate.
  - intros f [<-|[]]; cbn; intuition discriminate.
  - intros rho _ _. split; [intros f [<-|[<-|[<-|[]]]]|intros f [<-|[]]]; repeat split.
Qed.
Lemma fops_sat rho : satisfying Mstd (current fops) rho <-> well_typed rho /\ (2 <= rho vx <= 10 /\ 0 <= rho vy <= 10 /\ 0 < rho vi <= 2147483647 /\ rho vx + rho vy >= 3)%R.
Proof.
  rewrite fops_current. unfold satisfying. cbn [p_doms p_asserts].
  assert (Bt : forall x, between (dZ 0) (dZ 10) x <-> (0 <= x <= 10)%R) by (intros x; unfold between; rewrite !dZ_ext by lia; reflexivity).
  assert (H1 : holds Mstd (xc RGeq 2) rho <-> (rho vx >= 2)%R) by (cbn [xc holds relR evalE]; rewrite dZ_R by lia; reflexivity).
  assert (H2 : holds Mstd ipos rho <-> (rho vi > 0)%R) by (unfold ipos; cbn [holds relR evalE]; rewrite dZ_R by lia; reflexivity).
  assert (H3 : holds Mstd sum3 rho <-> (rho vx + rho vy >= 3)%R).
  { unfold sum3. cbn [holds relR evalE fold_right ex_x ex_y]. rewrite !dZ_R by lia. unfold dzero. cbn [B2R]. split; lra. }
  split; intros (W & A); (split; [exact W|]).
  - destruct A as [Dm As]. pose proof (Dm _ _ (or_introl eq_refl)) as D1. pose proof (Dm _ _ (or_intror (or_introl eq_refl))) as D2. pose proof (Dm _ _ (or_intror (or_intror (or_introl eq_refl)))) as D3.
    apply Bt in D1, D2. cbn [dom0] in D3.
    pose proof (proj1 H1 (As _ (or_introl eq_refl))). pose proof (proj1 H2 (As _ (or_intror (or_introl eq_refl)))). pose proof (proj1 H3 (As _ (or_intror (or_intror (or_introl eq_refl))))). lra.
  - destruct A as (A1 & A2 & A3 & A4). split.
    + intros v d [E|[E|[E|[]]]]; injection E as <- <-; [apply Bt|apply Bt|cbn [dom0]]; lra.
    + intros f [<-|[<-|[<-|[]]]]; [apply H1|apply H2|apply H3]; lra.
Qed.
Definition at_i (a b c : R) : env := fun v => match vid v, vty v with 0, CONTINUOUS => a | 1, CONTINUOUS => b | _, INTEGER => c | _, _ => 0%R end.
Lemma ati_typed a b : well_typed (at_i a b 1).
Proof. intros [i []]; cbn [vty]; [exact I| | |]; destruct i as [|[|i]]; cbn; auto; exists 1%Z; reflexivity. Qed.
Lemma ati_vals a b c : at_i a b c vx = a /\ at_i a b c vy = b /\ at_i a b c vi = c. Proof. repeat split. Qed.
Definition frun (r : option (ctx * list (option box))) (fpow : dbl -> dbl -> dbl) : bool := match r with Some (c, []) => givesO (minimize fpow 20 [mobj] c) 5 && givesO (maximize fpow 20 mobj c) 5 | _ => false end.
Lemma frun_ok fpow : frun (run_ex ex_T fops) fpow = true. Proof. vm_compute. reflexivity. Qed.
Lemma frun_gen r fpow : frun r fpow = true -> exists c ops t mops mt, r = Some (c, []) /\ minimize fpow 20 [mobj] c = (Val ops, t) /\ Forall (exact Mstd) t /\ maximize fpow 20 mobj c = (Val mops, mt) /\ Forall (exact Mstd) mt.
Proof.
  unfold frun. intros H. destruct r as [[c [|? ?]]|]; try discriminate H. apply andb_true_iff in H. destruct H as [H1 H2].
  destruct (givesO_ok (fun _ _ => 0%R) (fun lb _ => B2R lb) _ _ H1) as (ops & t & E & Ht). destruct (givesO_ok (fun _ _ => 0%R) (fun lb _ => B2R lb) _ _ H2) as (mops & mt & E' & Ht'). exists c, ops, t, mops, mt. auto.
Qed.
Lemma fops_meet : forall fpow, admissible Mstd stdD nofold kplain 10 fops [] (p_empty, []) /\ delta_ops nofold fops (p_empty, []) /\ Forall exact_op fops /\ posed_problem Mstd stdD (current fops) [mobj] /\
  (exists c ops t mops mt, run_ex ex_T fops = Some (c, []) /\ minimize fpow 20 [mobj] c = (Val ops, t) /\ Forall (exact Mstd) t /\ maximize fpow 20 mobj c = (Val mops, mt) /\ Forall (exact Mstd) mt) /\
  satisfying Mstd (current fops) (at_i 3 0 1) /\ optimal Mstd (current fops) [mobj] (at_i 3 0 1) /\
  satisfying Mstd (current fops) (at_i 2 1 1) /\ ~ optimal Mstd (current fops) [mobj] (at_i 2 1 1).
Proof.
  intros fpow. split; [exact fops_adm|]. split; [exact fops_delta|]. split; [exact fops_exact|]. split; [exact fops_posed|]. split; [exact (frun_gen _ fpow (frun_ok fpow))|].
  assert (S1 : satisfying Mstd (current fops) (at_i 3 0 1)) by (apply fops_sat; split; [apply ati_typed|]; destruct (ati_vals 3 0 1) as (-> & -> & ->); lra).
  assert (S2 : satisfying Mstd (current fops) (at_i 2 1 1)) by (apply fops_sat; split; [apply ati_typed|]; destruct (ati_vals 2 1 1) as (-> & -> & ->); lra).
  split; [exact S1|]. split; [|split; [exact S2|]].
  - intros (r & Hr & L). apply fops_sat in Hr. specialize (L mobj (or_introl eq_refl)). unfold Mstd in L. rewrite !m_obj in L. destruct (ati_vals 3 0 1) as (E1 & E2 & _). rewrite E1, E2 in L. lra.
  - intros H. apply H. exists (at_i 3 0 1). split; [exact S1|]. intros f [<-|[]]. unfold Mstd. rewrite !m_obj. destruct (ati_vals 3 0 1) as (E1 & E2 & _), (ati_vals 2 1 1) as (E3 & E4 & _). rewrite E1, E2, E3, E4. lra.
Qed.

Lemma af_problem : forall fpow, fresh_ids (fvF af2 ++ fvE ex_x) 10 /\ qf_formula af2 /\ ite_exact Mstd stdD nofold kplain af2 /\ hasIteF af2 = false /\ unfolded nofold af2 /\ af2 <> FFalse /\
  exact_bound af2 /\ api_posed Mstd stdD ex_x af2 /\ mverdict (api_minimize nofold kplain brute toyT ibex_mid fpow 20 ex_x af2 half 10 20) = Some true /\
  api_point Mstd (fvF af2 ++ fvE ex_x) af2 (at3 1 0 0) /\ ~ (exists rho', api_point Mstd (fvF af2 ++ fvE ex_x) af2 rho' /\ (evalE Mstd ex_x rho' < evalE Mstd ex_x (at3 1 0 0))%R).
Proof.
  assert (H : forall rho, holds Mstd af2 rho <-> (1 <= rho vx <= 3)%R).
  { intros rho. unfold af2. cbn [holds fold_right relR evalE ex_x]. rewrite !dZ_R by lia. unfold dzero. cbn [B2R]. split; [lra|intros X; repeat split; lra]. }
  intros fpow. split; [exact (proj2 (proj2 af_ids))|]. split; [exact (proj2 af_qf)|]. split; [apply plain_ite|]. split; [reflexivity|]. split; [apply unf_any|]. split; [discriminate|].
  split; [intros o v cs E; discriminate E|]. split.
  { split; [cbn; intuition discriminate|]. split; [cbn; intuition discriminate|]. intros rho _ _. split; [repeat split|exact I]. }
  split; [exact (af_min fpow)|]. split.
  - split; [apply at3_typed|]. split; [|apply H; cbn [at3 vx vid vty]; lra]. intros v Hv. cbn in Hv. repeat destruct Hv as [<-|Hv]; try exact I. destruct Hv.
  - intros (r & (_ & _ & Hr) & L). apply H in Hr. cbn [ex_x evalE] in L. change (at3 1 0 0 vx) with 1%R in L. lra.
Qed.
