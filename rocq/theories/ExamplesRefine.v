(** Refining counterexamples: a query, and runs with different optimisers. *)
From Coq Require Import ZArith Reals Lra Lia List Bool Arith.
From Flocq Require Import Core.Core IEEE754.BinarySingleNaN.
From Verif Require Import Dbl DblProofs Syntax Sem SemProofs FormulaCons SpecForm Interval IntervalProofs IEval IEvalProofs StdInterp MathConv MathConvProofs ExprAlg SpecAlg SpecIte DeltaStr VarSet
  Contr IbexConv Filter Theory Regular Wff Scoped IteElim Sat Context SpecCtx SpecApi CtxTop Forall SpecForall ForallProofs ForallEval Refiner SpecRefine
  ExamplesForm ExamplesBox ExamplesEval ExamplesIte ExamplesAlg ExamplesContr ExamplesIcp ExamplesCtx ExamplesSmt2 ExamplesForall.
Import ListNotations.
Local Notation R := Rdefinitions.R.
#[local] Opaque dZ mkd.

(** The counterexample query of: for all y: y >= 2 or y <= -1 or x + y <= 3 *)
Definition xyq : expr := EAdd (mkd (-1) (-2)) [(EVar vx, dZ 1); (EVar vy, dZ 1)].
Definition q1 : formula := FAnd [FRel RLt (EVar vy) (EConst (mkd 7 (-2))); FRel RGt (EVar vy) (EConst (mkd (-3) (-2))); FRel RGt xyq (EConst (dZ 3))].
Lemma q1_given fpow : gives_f (lo_query nofold fpow 20 20 fa1 quarter) q1 = true. Proof. vm_compute. reflexivity. Qed.
(** 3 - (x + y - 1/4) *)
Definition c1 : expr := EAdd (mkd 13 (-2)) [(EVar vx, dZ (-1)); (EVar vy, dZ (-1))].
Definition p1 : nlprob := mkNl true (mkBox [vy] [IV (dnextafter (mkd (-3) (-2)) dmax) (dnextafter (mkd 7 (-2)) dmin_normal)]) (Some c1) [(false, c1)].
Definition con_eqb (a b : bool * expr) : bool := Bool.eqb (fst a) (fst b) && expr_eqb (snd a) (snd b).
Definition obj_eqb (a b : option expr) : bool := match a, b with Some x, Some y => expr_eqb x y | None, None => true | _, _ => false end.
Definition prob_eqb (a b : nlprob) : bool := Bool.eqb (nl_slsqp a) (nl_slsqp b) && box_eqb (nl_box a) (nl_box b) && obj_eqb (nl_obj a) (nl_obj b) && list_eqb con_eqb (nl_cons a) (nl_cons b).
Lemma prob_eqb_eq a b : prob_eqb a b = true -> a = b.
Proof.
  destruct a as [s x o l], b as [s' x' o' l']. unfold prob_eqb. cbn [nl_slsqp nl_box nl_obj nl_cons]. intros H. apply andb_true_iff in H. destruct H as [H H4]. apply andb_true_iff in H. destruct H as [H H3].
  apply andb_true_iff in H. destruct H as [H1 H2]. apply Bool.eqb_prop in H1. apply box_eqb_eq in H2.
  assert (o = o') by (destruct o, o'; cbn [obj_eqb] in H3; try discriminate; auto; apply expr_eqb_eq in H3; congruence).
  assert (l = l'). { apply (list_eqb_eq' con_eqb); [|exact H4]. intros [e c] [e' c'] E. unfold con_eqb in E. cbn [fst snd] in E. apply andb_true_iff in E. destruct E as [E1 E2]. apply Bool.eqb_prop in E1. apply expr_eqb_eq in E2. congruence. }
  congruence.
Qed.
Definition gives_p (c : comp (option nlprob)) (o : option nlprob) : bool :=
  match c with (Val r, t) => match r, o with Some a, Some b => prob_eqb a b | None, None => true | _, _ => false end && forallb stepb t | _ => false end.
Lemma gives_p_ok uf rc c o : gives_p c o = true -> exists t, c = (Val o, t) /\ Forall (exact (std uf rc)) t.
Proof.
  destruct c as [[r| | |] t]; cbn [gives_p]; try discriminate. intros H. apply andb_true_iff in H. destruct H as [H1 H2]. exists t. split; [|now apply stepsb_exact].
  destruct r, o; try discriminate; [apply prob_eqb_eq in H1|]; congruence.
Qed.
Lemma p1_given fpow : gives_p (lo_refiner nofold fpow 20 20 fa1 quarter) (Some p1) = true. Proof. vm_compute. reflexivity. Qed.
Lemma p1_from fpow : gives_p (cr_new fpow 20 q1 [vy]) (Some p1) = true. Proof. vm_compute. reflexivity. Qed.

(** ** A library that, like IBEX, returns the empty box when it is given one with an empty component *)
Definition lib_e : ibex := {| ib_backward := fun c iv => if existsb i_empty iv then (false, map (fun _ => IEmpty) iv) else lib_backward c iv;
  ib_polytope := fun cs iv => if existsb i_empty iv then map (fun _ => IEmpty) iv else ib_polytope lib cs iv |}.
Lemma none_step cs iv : Forall i_ok iv -> existsb i_empty iv = true -> ibex_step_ok Mstd stdD cs iv (map (fun _ => IEmpty) iv).
Proof.
  intros K E. apply existsb_exists in E. destruct E as (i & Hi & Ei).
  assert (Z : forall j, nth j (map (fun _ : ival => IEmpty) iv) IEmpty = IEmpty).
  { intros j. change IEmpty with ((fun _ : ival => IEmpty) IEmpty) at 2. rewrite map_nth. reflexivity. }
  split; [apply map_length|]. split; [|split; [|split]].
  - apply Forall_forall. intros x Hx. apply in_map_iff in Hx. destruct Hx as (y & <- & _). exact Logic.I.
  - intros j x H. rewrite Z in H. destruct H.
  - intros p Hp _ j _. exfalso. destruct (In_nth _ _ IEmpty Hi) as (k & Hk & Ek). pose proof (Hp k Hk) as X. rewrite Ek in X. destruct i; [exact X|discriminate Ei].
  - intros F. rewrite Forall_forall in F. rewrite (F i Hi) in Ei. discriminate.
Qed.
Lemma lib_e_ok : ibex_ok Mstd stdD lib_e.
Proof.
  destruct lib_ok as [A B]. split.
  - intros c iv N K. cbn [lib_e ib_backward]. destruct (existsb i_empty iv) eqn:E; [|exact (A c iv N K)]. cbn [fst snd]. split; [now apply none_step|discriminate].
  - intros cs iv N K. cbn [lib_e ib_polytope]. destruct (existsb i_empty iv) eqn:E; [now apply none_step|exact (B cs iv N K)].
Qed.
Definition orc_e : oracles := ibex_oracles lib_e plain_sub plain_neg 10 (fun _ _ => None).

(** ** Optimisers *)
Definition nlopt_t := nlprob -> list (var * dbl) -> list dbl -> option (bool * list dbl).
(** Always 1 *)
Definition nl_one : nlopt_t := fun _ _ x => Some (true, map (fun _ => dZ 1) x).
(** Infinity *)
Definition nl_inf : nlopt_t := fun _ _ x => Some (true, map (fun _ => dpinf) x).
(** FAILURE, or an exception *)
Definition nl_fail : nlopt_t := fun _ _ x => Some (false, map (fun _ => dpinf) x).
Definition nl_throw : nlopt_t := fun _ _ _ => None.
Lemma nl_one_ok : nl_numbers nl_one.
Proof. intros p e x ok y E. unfold nl_one in E. assert (y = map (fun _ => dZ 1) x) by congruence. subst y. split; [apply map_length|]. apply Forall_forall. intros c Hc. apply in_map_iff in Hc. destruct Hc as (z & <- & _). apply dZ_fin. lia. Qed.
Definition prunes_lo (nl : nlopt_t) (f : formula) (bs : list box) (ctc : contractor) (c : ctx) : option (ctx * list box) :=
  fc_prunes nofold kplain brute ex_T ibex_mid half orc_e default_term 20 (cr_refine ibex_mid nl (Some p1) [vy]) f ctc 20 20 bs c.
Definition fopsq : list cop := [ODeclare vx true; ODeclare vy true; OAssert (FRel RLt (EVar vy) (EConst (mkd 7 (-2)))); OAssert (FRel RGt (EVar vy) (EConst (mkd (-3) (-2)))); OAssert (FRel RGt xyq (EConst (dZ 3)))].
Lemma one_runs : prunes_are (setup_ex fa1) (run_ex ex_T) (prunes_lo nl_one fa1 [bx 0 4; bx 0 1]) fopsq true [bx 0 4; bx 0 1] = true.
Proof. vm_compute. reflexivity. Qed.
Lemma inf_runs : prunes_are (setup_ex fa1) (run_ex ex_T) (prunes_lo nl_inf fa1 [bx 0 4]) fopsq true [bx_none] = true.
Proof. vm_compute. reflexivity. Qed.
Lemma fopsq_adm : admissible Mstd stdD nofold kplain 10 fopsq [] (p_empty, []).
Proof.
  unfold fopsq, xyq. cbn [admissible op_ok p_step news_step fst snd admissible_q op_ok_q].
  repeat match goal with
  | |- _ /\ _ => split
  | |- True => exact I
  | |- known _ _ _ => left; cbn; lia
  | |- ite_exact _ _ _ _ _ => apply plain_ite
  | |- wfF _ _ _ _ => cbn [wfF wfE fold_right]
  | |- declared _ _ => cbn; auto 10
  | |- is_finite _ = true => vm_compute; reflexivity
  | |- vty _ <> _ => discriminate
  end.
Qed.
Lemma one_meets : exists ctc t c0 b0 c1,
  NoDup ([vx] ++ [vy]) /\ (forall v, In v ([vx] ++ [vy]) -> vty v = CONTINUOUS) /\ unfolded nofold body1 /\ consts_finite body1 /\ (forall v, In v (fvF body1) -> In v ([vx] ++ [vy])) /\ nl_numbers nl_one /\
  setup_ex fa1 = (Val (fopsq, Some ctc), t) /\ run_ex ex_T fopsq = Some (c0, []) /\ admissible Mstd stdD nofold kplain 10 fopsq [] (p_empty, []) /\ cx_box c0 = Some b0 /\ b_full b0 /\
  (forall b, In b [bx 0 4; bx 0 1] -> box_ok b /\ b_full b /\ bvars b = [vx]) /\
  prunes_lo nl_one fa1 [bx 0 4; bx 0 1] ctc c0 = Some (c1, [bx 0 4; bx 0 1]).
Proof.
  destruct (prunes_gen _ _ _ _ _ _ one_runs) as (ctc & t & c0 & b0 & c1 & E1 & _ & E2 & E3 & E4 & E5). exists ctc, t, c0, b0, c1.
  split; [repeat constructor; cbn; intuition discriminate|]. split; [intros v [<-|[<-|[]]]; reflexivity|].
  split; [repeat constructor; intros f [<-|[<-|[<-|[]]]]; constructor; reflexivity|].
  split; [constructor; intros f [<-|[<-|[<-|[]]]]; constructor; split; cbn [finE yc xy fold_right]; repeat split; try exact I; try (apply dZ_fin; lia); vm_compute; reflexivity|].
  split; [intros v Hv; cbn in *; tauto|]. split; [exact nl_one_ok|]. split; [exact E1|]. split; [exact E2|]. split; [exact fopsq_adm|]. split; [exact E3|]. split; [exact (E4 eq_refl)|].
  split; [|exact E5]. intros b [<-|[<-|[]]]; apply bx_ok; lia.
Qed.
(** With an infinite answer the box [0,4] is emptied, although x = 0 is a solution. *)
Lemma inf_wrong : exists t t' c,
  lo_refiner nofold (fun a _ => a) 20 20 fa1 quarter = (Val (Some p1), t') /\
  fc_life nofold kplain brute ex_T ibex_mid half (fun a _ => a) 20 20 plain_sub plain_neg 10 orc_e default_term 20 false (cr_refine ibex_mid nl_inf (Some p1) [vy]) fa1 [vx] quarter 10 20 20 [bx 0 4] =
    (Val (Some (c, [bx_none])), t) /\ Forall (exact Mstd) t /\ exists rho, in_box rho (bx 0 4) /\ solves Mstd stdD fa1 rho.
Proof.
  destruct (prunes_gen _ _ _ _ _ _ inf_runs) as (ctc & t & c0 & b0 & c1 & E1 & Ht & E2 & E3 & E4 & E5). destruct (gives_p_ok (fun _ _ => 0%R) (fun lb _ => B2R lb) _ _ (p1_given (fun a _ => a))) as (t' & Ep & _).
  exists t, t', c1. split; [exact Ep|]. split; [|split; [exact Ht|]].
  - unfold fc_life. unfold setup_ex in E1. rewrite E1. cbn [ExprAlg.bind ret fst snd IEval.bind]. unfold run_ex in E2. rewrite E2. unfold prunes_lo in E5. rewrite E5. rewrite app_nil_r. reflexivity.
  - exists (at2 0 0). split.
    + split; [reflexivity|]. intros i v Hi. destruct i as [|i]; cbn in Hi; [|destruct i; discriminate]. injection Hi as <-. unfold b_get. cbn [bx bvals nth imem]. rewrite !dZ_ext by lia. cbn [ext_le]. change (at2 0 0 vx) with 0%R. lra.
    + split.
      * cbn. tauto.
      * intros rho' Ha _. assert (Ex : rho' vx = 0%R) by (rewrite (Ha vx); [reflexivity|intros [X|[]]; discriminate X]).
        change (holds Mstd body1 rho'). cbn [body1 holds fold_right yc relR evalE xy]. rewrite !dZ_R by lia. rewrite Ex. unfold dzero. cbn [B2R].
        destruct (Rle_dec 2 (rho' vy)); [left; lra|]. right. right. left. lra.
Qed.

(** ** The problem *)
Definition q2 : formula := FAnd [FRel RLt (EVar vy) (EConst (mkd 7 (-2))); FRel RGeq (EVar vy) (EConst (dZ (-1))); FRel RGt xyq (EConst (dZ 3))].
Definition p2 : nlprob := mkNl true (mkBox [vy] [IV (dZ (-1)) (dnextafter (mkd 7 (-2)) dmin_normal)]) (Some c1) [(false, c1)].
Lemma p2_from fpow : gives_p (cr_new fpow 20 q2 [vy]) (Some p2) = true. Proof. vm_compute. reflexivity. Qed.
Lemma q2_lits f : In f (cr_query q2) -> query_lit [vy] f /\ finF f /\ (forall M D rho, defF M D f rho) /\ exact_if_bound f.
Proof.
  intros [<-|[<-|[<-|[]]]]; (split; [split; [eexists _, _, _; reflexivity|]|split; [|split]]).
  - intros o v c cs E. cbn in E. assert (v = vy) by congruence. subst. left. reflexivity.
  - cbn [finF finE]. split; [exact I|vm_compute; reflexivity].
  - intros M D rho. split; exact I.
  - intros o v c cs E. exists RLt, vy, (mkd 7 (-2)). split; [reflexivity|]. intros _. split; vm_compute; reflexivity.
  - intros o v c cs E. cbn in E. assert (v = vy) by congruence. subst. left. reflexivity.
  - cbn [finF finE]. split; [exact I|vm_compute; reflexivity].
  - intros M D rho. split; exact I.
  - intros o v c cs E. exists RGeq, vy, (dZ (-1)). split; [reflexivity|]. intros X. discriminate X.
  - intros o v c cs E. cbn in E. discriminate.
  - cbn [finF finE xyq fold_right]. repeat split; vm_compute; reflexivity.
  - intros M D rho. cbn. tauto.
  - intros o v c cs E. cbn in E. discriminate.
Qed.
(** The point x = 4, y = 1 satisfies it and is in the default box. *)
Lemma q2_point uf rc : in_box (at2 4 1) (cr_box [vy]) /\ forall f, In f (cr_query q2) -> holds (std uf rc) f (at2 4 1) /\ gap_free f (at2 4 1).
Proof.
  split.
  - split; [reflexivity|]. intros i v Hi. destruct i as [|i]; cbn in Hi; [|destruct i; discriminate]. unfold b_get. cbn [cr_box fold_left b_add box0 bvals b_size bvars length iv_resize firstn repeat app upd_nth nth imem default_dom].
    destruct (vty vy) eqn:E; try discriminate E. split; exact I.
  - assert (S : (B2R (mkd 7 (-2)) = 7 / 4)%R) by (rewrite (mkd_R 7 (-2)); [cbn; lra|lia|lia|vm_compute; reflexivity|vm_compute; reflexivity]).
    assert (S1 : (B2R (mkd (-1) (-2)) = - (1 / 4))%R) by (rewrite (mkd_R (-1) (-2)); [cbn; lra|lia|lia|vm_compute; reflexivity|vm_compute; reflexivity]).
    intros f [<-|[<-|[<-|[]]]]; split.
    + cbn [holds relR evalE]. rewrite S. change (at2 4 1 vy) with 1%R. lra.
    + intros _ _ c [<-|[]]. assert (Y : ~ gap (mkd 7 (-2)) 1) by (apply (gap_dbl _ (dZ 1)); [vm_compute; reflexivity|apply dZ_nan; lia|apply dZ_ext; lia]).
      unfold gap in Y. change (at2 4 1 vy) with 1%R. tauto.
    + cbn [holds relR evalE]. rewrite dZ_R by lia. change (at2 4 1 vy) with 1%R. lra.
    + intros X. discriminate X.
    + cbn [holds relR evalE xyq fold_right]. rewrite !dZ_R by lia. rewrite S1. change (at2 4 1 vx) with 4%R. change (at2 4 1 vy) with 1%R. lra.
    + intros X. exact I.
Qed.
(** A bound on another variable: x > 3 and x > y, y quantified.  The bound is put on y. *)
Definition q3 : formula := FAnd [FRel RGt (EVar vx) (EConst (dZ 3)); FRel RGt (EVar vx) (EVar vy)].
Definition yx : expr := EAdd dzero [(EVar vx, dZ (-1)); (EVar vy, dZ 1)].
Definition p3 : nlprob := mkNl true (mkBox [vy] [IV (dnextafter (dZ 3) dmax) dpinf]) (Some yx) [(false, yx)].
Lemma p3_from fpow : gives_p (cr_new fpow 20 q3 [vy]) (Some p3) = true. Proof. vm_compute. reflexivity. Qed.
Lemma q3_wrong uf rc fpow : exists t rho, cr_new fpow 20 q3 [vy] = (Val (Some p3), t) /\ Forall (exact (std uf rc)) t /\ solves (std uf rc) stdD q3 rho /\ gap_free (FRel RGt (EVar vx) (EConst (dZ 3))) rho /\ ~ feasible (std uf rc) p3 rho.
Proof.
  destruct (gives_p_ok uf rc _ _ (p3_from fpow)) as (t & E & Ht). exists t, (at2 4 1). split; [exact E|]. split; [exact Ht|]. split; [|split].
  - split; [cbn; tauto|]. cbn [q3 holds fold_right relR evalE]. rewrite dZ_R by lia. change (at2 4 1 vx) with 4%R. change (at2 4 1 vy) with 1%R. split; [lra|]. split; [lra|exact I].
  - intros _ _ c [<-|[]]. assert (Y : ~ gap (dZ 3) 4) by (apply (gap_dbl _ (dZ 4)); [apply dZ_fin; lia|apply dZ_nan; lia|apply dZ_ext; lia]). unfold gap in Y. change (at2 4 1 vx) with 4%R. tauto.
  - intros [[_ H] _]. specialize (H 0 vy eq_refl). unfold b_get in H. cbn [p3 nl_box bvals nth imem] in H. destruct H as [H _]. change (at2 4 1 vy) with 1%R in H.
    assert (X : ext_le (d2e (dZ 3)) (d2e (dnextafter (dZ 3) dmax))). { apply dle_spec; vm_compute; reflexivity. }
    rewrite (dZ_ext 3) in X by lia. destruct (d2e (dnextafter (dZ 3) dmax)); cbn [ext_le] in *; try contradiction; lra.
Qed.
(** An equality under the quantifier: for all y: x = y *)
Definition fa5 : formula := FForall [vy] (FRel REq (EVar vx) (EVar vy)).
Definition throws {A} (c : comp A) : bool := match fst c with ExprAlg.Throw => true | _ => false end.
Definition sets_up (c : comp (list cop * option contractor)) : bool := match c with (Val (_, Some _), t) => forallb stepb t | _ => false end.
Lemma fa5_throws fpow : throws (lo_refiner nofold fpow 20 20 fa5 quarter) = true /\ sets_up (setup_ex fa5) = true.
Proof. split; vm_compute; reflexivity. Qed.
(** not (x > y) *)
Definition xgty : formula := FRel RGt (EVar vx) (EVar vy).
Definition nl0 : nlprob := mkNl true (mkBox [vy] [i_all]) None [].
Definition gives_q (c : comp nlprob) (o : nlprob) : bool := match c with (Val r, t) => prob_eqb r o && forallb stepb t | _ => false end.
Lemma not_given fpow : gives_q (add_con nofold fpow 20 (FNot xgty) nl0) (nl_add nl0 false yx) = true. Proof. vm_compute. reflexivity. Qed.
Lemma not_wrong uf rc fpow : exists p t, add_con nofold fpow 20 (FNot xgty) nl0 = (Val p, t) /\ Forall (exact (std uf rc)) t /\
  (exists rho, solves (std uf rc) stdD (FNot xgty) rho /\ ~ feasible (std uf rc) p rho) /\ exists rho, feasible (std uf rc) p rho /\ ~ holds (std uf rc) (FNot xgty) rho.
Proof.
  pose proof (not_given fpow) as G. destruct (add_con nofold fpow 20 (FNot xgty) nl0) as [[r| | |] t]; cbn [gives_q] in G; try discriminate. apply andb_true_iff in G. destruct G as [G1 G2]. apply prob_eqb_eq in G1. subst r.
  exists (nl_add nl0 false yx), t. split; [reflexivity|]. split; [now apply stepsb_exact|].
  assert (V : forall a b, evalE (std uf rc) yx (at2 a b) = (b - a)%R).
  { intros a b. cbn [yx evalE fold_right]. rewrite !dZ_R by lia. change (at2 a b vx) with a. change (at2 a b vy) with b. unfold dzero. cbn [B2R]. lra. }
  split.
  - exists (at2 1 2). split.
    + split; [cbn; tauto|]. cbn [xgty holds relR evalE]. change (at2 1 2 vx) with 1%R. change (at2 1 2 vy) with 2%R. lra.
    + intros [_ H]. specialize (H false yx (or_introl eq_refl)). cbv iota in H. rewrite V in H. lra.
  - exists (at2 2 1). split.
    + split.
      * split; [reflexivity|]. intros i v Hi. destruct i as [|i]; cbn in Hi; [|destruct i; discriminate]. split; exact I.
      * intros e c [X|[]]. assert (e = false) by congruence. assert (c = yx) by congruence. subst. rewrite V. lra.
    + cbn [xgty holds relR evalE]. change (at2 2 1 vx) with 2%R. change (at2 2 1 vy) with 1%R. intros H. apply H. lra.
Qed.

(** x in [0,4], y in [0,2]; the optimiser answers y = 1 *)
Definition b_xy : box := mkBox [vx; vy] [IV (dZ 0) (dZ 4); IV (dZ 0) (dZ 2)].
Lemma xy_refined : box_ok b_xy /\ NoDup [vy] /\ incl [vy] (bvars b_xy) /\ filter (fun v => mem_var v [vy]) (bvars b_xy) = [vy] /\
  cr_refine ibex_mid nl_one (Some p1) [vy] b_xy = mkBox [vx; vy] [IV (dZ 0) (dZ 4); i_point (dZ 1)] /\ cr_start ibex_mid [vy] b_xy = [dZ 1] /\ cr_env ibex_mid [vy] b_xy = [(vx, dZ 2)].
Proof.
  split; [|split; [|split; [|split; [|split; [|split]]]]].
  - split; [repeat constructor; cbn; intuition discriminate|]. split; [reflexivity|]. repeat constructor; vm_compute; try reflexivity; discriminate.
  - repeat constructor; cbn; tauto.
  - intros v [<-|[]]. right. left. reflexivity.
  - reflexivity.
  - apply box_eqb_eq. vm_compute. reflexivity.
  - apply (list_eqb_eq' dbl_eqb); [intros x y; apply dbl_eqb_eq|]. vm_compute. reflexivity.
  - apply (list_eqb_eq' (fun a b => var_eqb (fst a) (fst b) && dbl_eqb (snd a) (snd b))); [|vm_compute; reflexivity].
    intros [v c] [v' c'] H. cbn [fst snd] in H. apply andb_true_iff in H. destruct H as [H1 H2]. apply var_eqb_eq in H1. apply dbl_eqb_eq in H2. congruence.
Qed.
