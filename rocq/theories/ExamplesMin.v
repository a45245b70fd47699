(** Optimization problems: an optimum and a point that is none; a strict bound; a Boolean variable. *)
From Coq Require Import ZArith Reals Lra Lia List Bool.
From Flocq Require Import Core.Core IEEE754.BinarySingleNaN.
From Verif Require Import Dbl DblProofs Syntax Sem SemProofs FormulaCons Interval IntervalProofs IEval IEvalProofs StdInterp MathConv MathConvProofs ExprAlg SpecAlg SpecIte SmtOcc
  Scoped IteElim Sat Context SpecCtx Minim SpecMin MinimProofs ExamplesForm ExamplesBox ExamplesIte ExamplesAlg ExamplesCtx.
Import ListNotations.
Local Notation R := Rdefinitions.R.

(** x, y in [0,10], z in [0,1]; x + y >= 3; 2 z <= 1; minimize x + 2 y: the constraint on z is not connected to the objective. *)
Definition mbox : box := mkBox [vx; vy; vz] [IV (dZ 0) (dZ 10); IV (dZ 0) (dZ 10); IV (dZ 0) (dZ 1)].
Definition mcons : list formula :=
  [FRel RGeq (EAdd dzero [(ex_x, dZ 1); (ex_y, dZ 1)]) (EConst (dZ 3)); FRel RLeq (EAdd dzero [(ex_z, dZ 2)]) (EConst (dZ 1))].
Definition mobj : expr := EAdd dzero [(ex_x, dZ 1); (ex_y, dZ 2)].
Definition mctx : ctx :=
  {| cx_boxes := {| sv_vec := [mbox]; sv_scopes := [] |}; cx_stack := {| sv_vec := mcons; sv_scopes := [] |}; cx_sat := sat_init; cx_next := 10;
     cx_mvars := [vx; vy; vz]; cx_model := box0; cx_calls := 0 |}.
Definition givesO (c : comp (list cop)) (k : nat) : bool := match c with (Val ops, t) => Nat.eqb (length ops) k && forallb stepb t | _ => false end.
Lemma givesO_ok uf rc c k : givesO c k = true -> exists ops t, c = (Val ops, t) /\ Forall (exact (std uf rc)) t.
Proof.
  destruct c as [[ops| | |] t]; cbn [givesO]; try discriminate. intros H. apply andb_true_iff in H. exists ops, t. split; auto. apply stepsb_exact, H.
Qed.
Lemma m_runs fpow : givesO (minimize fpow 20 [mobj] mctx) 5 = true. Proof. vm_compute. reflexivity. Qed.
Definition at3 (a b c : R) : env := fun v => match vid v, vty v with 0, CONTINUOUS => a | 1, CONTINUOUS => b | 2, CONTINUOUS => c | _, _ => 0%R end.
Lemma at3_typed a b c : well_typed (at3 a b c).
Proof. intros [i []]; cbn [vty]; [exact I| | |]; destruct i as [|[|[|i]]]; cbn; auto; exists 0%Z; reflexivity. Qed.
Lemma m_posed uf rc : posed (std uf rc) stdD mbox mcons [mobj] 10.
Proof.

  split. { split; [repeat constructor; cbn; intuition discriminate|]. split; [reflexivity|]. repeat constructor; vm_compute; auto. }
  split. { intros v [<-|[<-|[<-|[]]]]; cbn; lia. }
  split. { intros v w [<-|[<-|[<-|[]]]] [<-|[<-|[<-|[]]]]; cbn; congruence. }
  split. { intros f [<-|[<-|[]]]; cbn; intuition discriminate. }
  split. { intros f [<-|[]]; cbn; intuition discriminate. }
  intros rho _ _. split; [intros f [<-|[<-|[]]]|intros f [<-|[]]]; repeat split.
Qed.
Lemma m_obj uf rc rho : evalE (std uf rc) mobj rho = (rho vx + 2 * rho vy)%R.
Proof. cbn [mobj evalE fold_right ex_x ex_y]. rewrite !dZ_R by lia. unfold dzero. cbn [B2R]. ring. Qed.
Lemma m_box rho : in_box rho mbox <-> (0 <= rho vx <= 10 /\ 0 <= rho vy <= 10 /\ 0 <= rho vz <= 1)%R.
Proof.
  split.
  - intros [_ H]. pose proof (H 0%nat vx eq_refl) as H0. pose proof (H 1%nat vy eq_refl) as H1. pose proof (H 2%nat vz eq_refl) as H2.
    unfold b_get in *. cbn [mbox bvals nth imem] in *. rewrite !dZ_ext in * by lia. cbn [ext_le] in *. lra.
  - intros (H0 & H1 & H2). split; [reflexivity|]. intros i v Hi. destruct i as [|[|[|i]]]; cbn in Hi; [| | |destruct i; discriminate]; injection Hi as <-;
      unfold b_get; cbn [mbox bvals nth imem]; rewrite !dZ_ext by lia; cbn [ext_le]; lra.
Qed.
Lemma m_feas uf rc rho : feasible (std uf rc) mbox mcons rho <-> well_typed rho /\ (0 <= rho vx <= 10 /\ 0 <= rho vy <= 10 /\ 0 <= rho vz <= 1)%R /\ (rho vx + rho vy >= 3 /\ 2 * rho vz <= 1)%R.
Proof.
  unfold feasible. rewrite m_box. unfold mcons. split; intros (H1 & H2 & H3); (split; [exact H1|split; [exact H2|]]).
  - pose proof (H3 _ (or_introl eq_refl)) as A. pose proof (H3 _ (or_intror (or_introl eq_refl))) as B. cbn [holds relR evalE fold_right ex_x ex_y ex_z] in A, B.
    rewrite !dZ_R in A by lia. rewrite !dZ_R in B by lia. unfold dzero in A, B. cbn [B2R] in A, B. lra.
  - intros f [<-|[<-|[]]]; cbn [holds relR evalE fold_right ex_x ex_y ex_z]; rewrite !dZ_R by lia; unfold dzero; cbn [B2R]; lra.
Qed.
(** (3, 0, 0) is feasible and optimal, (1, 2, 0) is feasible and not. *)
Lemma m_meets : forall uf rc fpow, let M := std uf rc in exists ops t, minimize fpow 20 [mobj] mctx = (Val ops, t) /\ Forall (exact M) t /\ cx_box mctx = Some mbox /\
  posed M stdD mbox (sv_vec (cx_stack mctx)) [mobj] (cx_next mctx) /\
  feasible M mbox (sv_vec (cx_stack mctx)) (at3 3 0 0) /\ undominated M mbox (sv_vec (cx_stack mctx)) [mobj] (at3 3 0 0) /\
  feasible M mbox (sv_vec (cx_stack mctx)) (at3 1 2 0) /\ ~ undominated M mbox (sv_vec (cx_stack mctx)) [mobj] (at3 1 2 0).
Proof.
  intros uf rc fpow M. destruct (givesO_ok uf rc _ _ (m_runs fpow)) as (ops & t & E & Ht). exists ops, t. split; [exact E|]. split; [exact Ht|]. split; [reflexivity|].
  cbn [mctx cx_stack sv_vec cx_next]. split; [apply m_posed|]. split; [|split; [|split]].
  - apply m_feas. split; [apply at3_typed|]. cbn [at3 vx vy vz vid vty]. lra.
  - intros (r & F & L). apply m_feas in F. specialize (L mobj (or_introl eq_refl)). unfold M in L. rewrite !m_obj in L. cbn [at3 vx vy vz vid vty] in *. lra.
  - apply m_feas. split; [apply at3_typed|]. cbn [at3 vx vy vz vid vty]. lra.
  - intros H. apply H. exists (at3 3 0 0). split; [apply m_feas; split; [apply at3_typed|]; cbn [at3 vx vy vz vid vty]; lra|].
    intros f [<-|[]]. unfold M. rewrite !m_obj. cbn [at3 vx vy vz vid vty]. lra.
Qed.
(** Maximizing x in the same domain *)
Lemma mx_runs fpow : givesO (maximize fpow 20 ex_x mctx) 5 = true. Proof. vm_compute. reflexivity. Qed.
Lemma mx_meets : forall uf rc fpow, let M := std uf rc in exists ops t, maximize fpow 20 ex_x mctx = (Val ops, t) /\ Forall (exact M) t /\ cx_box mctx = Some mbox /\
  posed M stdD mbox (sv_vec (cx_stack mctx)) [ex_x] (cx_next mctx) /\ feasible M mbox (sv_vec (cx_stack mctx)) (at3 10 0 0).
Proof.
  intros uf rc fpow M. destruct (givesO_ok uf rc _ _ (mx_runs fpow)) as (ops & t & E & Ht). exists ops, t. split; [exact E|]. split; [exact Ht|]. split; [reflexivity|].
  cbn [mctx cx_stack sv_vec cx_next]. split; [|apply m_feas; split; [apply at3_typed|]; cbn [at3 vx vy vz vid vty]; lra].
  destruct (m_posed uf rc) as (P1 & P2 & P3 & P4 & P5 & P6). split; [exact P1|]. split; [exact P2|]. split; [exact P3|]. split; [exact P4|]. split.
  - intros f [<-|[]]. split; [left; reflexivity|discriminate].
  - intros r Wr Ir. split; [apply P6; auto|]. intros f [<-|[]]. exact I.
Qed.

(** x in [0,10], x > 1, minimize x: the solver is given x >= 1 + 2^-52 and finds an optimum where there is none. *)
Definition ops_min : list cop := [ODeclareDom vx (dZ 0) (dZ 10) true; OAssert (xc RGt 1)].
Definition strict_ok (r : option (ctx * list (option box))) (fpow : dbl -> dbl -> dbl) : bool :=
  match r with
  | Some (c, []) =>
      match cx_box c, sv_vec (cx_stack c) with
      | Some (mkBox [v] [IV l u]), [] => var_eqb v vx && is_finite l && is_finite u && Z.eqb (zof l) (zof (mkd 4503599627370497 (-52))) && Z.eqb (zof u) (zof (dZ 10)) &&
          Nat.ltb (vid vx) (cx_next c) && givesO (minimize fpow 20 [ex_x] c) 4 && dle l u && negb (deq l dpinf) && negb (deq u dninf)
      | _, _ => false
      end
  | _ => false
  end.
Lemma strict_ok_runs fpow : strict_ok (run_ex ex_T ops_min) fpow = true. Proof. vm_compute. reflexivity. Qed.
Definition one_step : R := (4503599627370497 / 4503599627370496)%R.
Lemma one_step_R : B2R (mkd 4503599627370497 (-52)) = one_step.
Proof. Local Transparent mkd. unfold mkd. cbn. unfold F2R. cbn. unfold one_step. lra. Qed.
Lemma one_step_le : (one_step <= 10)%R. Proof. unfold one_step. lra. Qed.
Lemma zof_eq a b : zof a = zof b -> B2R a = B2R b. Proof. intros H. rewrite !zof_R, H. reflexivity. Qed.
Lemma strict_points uf rc : between (dZ 0) (dZ 10) (at3 one_step 0 0 vx) /\ holds (std uf rc) (xc RGt 1) (at3 one_step 0 0) /\
  exists rho', well_typed rho' /\ between (dZ 0) (dZ 10) (rho' vx) /\ holds (std uf rc) (xc RGt 1) rho' /\ (rho' vx < at3 one_step 0 0 vx)%R.
Proof.
  assert (Bt : forall x, (0 <= x <= 10)%R -> between (dZ 0) (dZ 10) x). { intros x Hx. unfold between. rewrite !dZ_ext by lia. cbn [ext_le]. lra. }
  assert (E : forall x, at3 x 0 0 vx = x) by reflexivity.
  assert (Hx : forall x, (1 < x)%R -> holds (std uf rc) (xc RGt 1) (at3 x 0 0)). { intros x L. cbn [xc holds relR evalE]. rewrite dZ_R, E by lia. lra. }
  split; [rewrite E; apply Bt; unfold one_step; lra|]. split; [apply Hx; unfold one_step; lra|].
  exists (at3 (1 + / 9007199254740992) 0 0). split; [apply at3_typed|]. split; [rewrite E; apply Bt; lra|]. split; [apply Hx; lra|]. rewrite !E. unfold one_step. lra.
Qed.
Lemma strict_core uf rc fpow c l u ops t : cx_box c = Some (mkBox [vx] [IV l u]) -> sv_vec (cx_stack c) = [] -> is_finite l = true -> is_finite u = true -> B2R l = one_step -> B2R u = 10%R ->
  (vid vx < cx_next c)%nat -> i_ok (IV l u) -> minimize fpow 20 [ex_x] c = (Val ops, t) -> Forall (exact (std uf rc)) t ->
  exists rho1, agree_off (declared_by ops) (at3 one_step 0 0) rho1 /\ forall f, In (OAssert f) ops -> holds (std uf rc) f rho1.
Proof.
  intros Eb Es H1 H2 Rl Ru H5 Ok E Ht.
  assert (IB : forall rho, in_box rho (mkBox [vx] [IV l u]) <-> (one_step <= rho vx <= 10)%R).
  { intros rho. unfold in_box, b_get. split.
    - intros [_ X]. specialize (X 0%nat vx eq_refl). cbn [bvals nth imem] in X. rewrite (finite_d2e l), (finite_d2e u), Rl, Ru in X by auto. exact X.
    - intros X. split; [reflexivity|]. intros i v Hi. destruct i as [|i]; cbn in Hi; [|destruct i; discriminate]. injection Hi as <-. cbn [bvals nth imem]. rewrite (finite_d2e l), (finite_d2e u), Rl, Ru by auto. exact X. }
  assert (P : posed (std uf rc) stdD (mkBox [vx] [IV l u]) (sv_vec (cx_stack c)) [ex_x] (cx_next c)).
  { rewrite Es. split. { split; [repeat constructor; intros []|]. split; [reflexivity|]. constructor; [exact Ok|constructor]. }
    split. { intros v [<-|[]]. exact H5. } split. { intros v w [<-|[]] [<-|[]] _. reflexivity. } split. { intros f []. }
    split. { intros f [<-|[]]. split; [left; reflexivity|discriminate]. } intros r _ _. split; [intros f []|intros f [<-|[]]; exact I]. }
  apply (proj2 (minimize_ctx uf rc fpow 20 [ex_x] c _ ops t Eb E Ht P (at3 one_step 0 0)
     (conj (at3_typed _ _ _) (conj (proj2 (IB _) (conj (Rle_refl _) one_step_le)) (fun f (X : In f (sv_vec (cx_stack c))) => match (eq_rect _ (fun l => In f l) X _ Es) with end))))).
  intros (r & (_ & F & _) & L). apply IB in F. specialize (L ex_x (or_introl eq_refl)). cbn [ex_x evalE] in L. change (at3 one_step 0 0 vx) with one_step in L. lra.
Qed.
Lemma strict_gen r uf rc fpow : strict_ok r fpow = true -> let M := std uf rc in exists c ops t rho, r = Some (c, []) /\ minimize fpow 20 [ex_x] c = (Val ops, t) /\ Forall (exact M) t /\
  well_typed rho /\ between (dZ 0) (dZ 10) (rho vx) /\ holds M (xc RGt 1) rho /\
  (exists rho1, agree_off (declared_by ops) rho rho1 /\ forall f, In (OAssert f) ops -> holds M f rho1) /\
  exists rho', well_typed rho' /\ between (dZ 0) (dZ 10) (rho' vx) /\ holds M (xc RGt 1) rho' /\ (rho' vx < rho vx)%R.
Proof.
  intros H M. unfold strict_ok in H.
  destruct r as [[c a]|]; [|discriminate H]. destruct a as [|? ?]; [|discriminate H].
  destruct (cx_box c) as [[vs is]|] eqn:Eb; [|discriminate H]. destruct vs as [|v [|? ?]]; try discriminate H. destruct is as [|[|l u] [|? ?]]; try discriminate H.
  destruct (sv_vec (cx_stack c)) as [|? ?] eqn:Es; [|discriminate H].
  apply andb_true_iff in H; destruct H as [H H9]. apply andb_true_iff in H; destruct H as [H H8]. apply andb_true_iff in H; destruct H as [H H7]. apply andb_true_iff in H; destruct H as [H H6].
  apply andb_true_iff in H; destruct H as [H H5]. apply andb_true_iff in H; destruct H as [H H4]. apply andb_true_iff in H; destruct H as [H H3]. apply andb_true_iff in H; destruct H as [H H2].
  apply andb_true_iff in H; destruct H as [H H1]. apply var_eqb_eq in H. subst v. apply Z.eqb_eq in H3, H4. apply Nat.ltb_lt in H5. apply negb_true_iff in H8, H9.
  assert (Rl : B2R l = one_step) by (rewrite <- one_step_R; apply zof_eq; exact H3).
  assert (Ru : B2R u = 10%R) by (rewrite <- (dZ_R 10) by lia; apply zof_eq; exact H4).
  destruct (givesO_ok uf rc _ _ H6) as (ops & t & E & Ht).
  exists c, ops, t, (at3 one_step 0 0). split; [reflexivity|]. split; [exact E|]. split; [exact Ht|].
  exact (conj (at3_typed _ _ _) (conj (proj1 (strict_points uf rc)) (conj (proj1 (proj2 (strict_points uf rc))) (conj
    (strict_core uf rc fpow c l u ops t Eb Es H1 H2 Rl Ru H5 (conj H7 (conj H8 H9)) E Ht) (proj2 (proj2 (strict_points uf rc))))))).
Qed.
Lemma strict_optimum : forall uf rc fpow, let M := std uf rc in exists c ops t rho, run_ex ex_T ops_min = Some (c, []) /\ minimize fpow 20 [ex_x] c = (Val ops, t) /\ Forall (exact M) t /\
  well_typed rho /\ between (dZ 0) (dZ 10) (rho vx) /\ holds M (xc RGt 1) rho /\
  (exists rho1, agree_off (declared_by ops) rho rho1 /\ forall f, In (OAssert f) ops -> holds M f rho1) /\
  exists rho', well_typed rho' /\ between (dZ 0) (dZ 10) (rho' vx) /\ holds M (xc RGt 1) rho' /\ (rho' vx < rho vx)%R.
Proof. intros uf rc fpow. exact (strict_gen _ uf rc fpow (strict_ok_runs fpow)). Qed.

(** b or x >= 1, minimize x: the copy of the constraint cannot be built. *)
Definition ops_bool : list cop := [ODeclareDom vx (dZ 0) (dZ 10) true; ODeclare vb true; OAssert (FOr [FVar vb; xc RGeq 1])].
Definition bool_throws (r : option (ctx * list (option box))) (fpow : dbl -> dbl -> dbl) : bool :=
  match r with Some (c, []) => match minimize fpow 20 [ex_x] c with (ExprAlg.Throw, _) => true | _ => false end | _ => false end.
Lemma bool_throws_runs fpow : bool_throws (run_ex ex_T ops_bool) fpow = true. Proof. vm_compute. reflexivity. Qed.
Lemma throws_gen r fpow : bool_throws r fpow = true -> exists c t, r = Some (c, []) /\ minimize fpow 20 [ex_x] c = (ExprAlg.Throw, t).
Proof.
  unfold bool_throws. intros H. destruct r as [[c a]|]; [|discriminate H]. destruct a; [|discriminate H].
  destruct (minimize fpow 20 [ex_x] c) as [[?| | |] t] eqn:E; try discriminate H. exists c, t. auto.
Qed.
Lemma boolean_throws : forall fpow, exists c t, run_ex ex_T ops_bool = Some (c, []) /\ minimize fpow 20 [ex_x] c = (ExprAlg.Throw, t).
Proof. intros fpow. exact (throws_gen _ fpow (bool_throws_runs fpow)). Qed.
