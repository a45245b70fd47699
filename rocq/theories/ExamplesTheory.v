(** A run of the theory solver whose explanation leaves constraints out. *)
From Coq Require Import ZArith Reals Lra Lia List Bool.
From Flocq Require Import Core.Core IEEE754.BinarySingleNaN.
From Verif Require Import Dbl DblProofs Syntax Sem SemProofs Interval IntervalProofs MathConv MathConvProofs SpecForm FormulaCons Nnf
  IEval IEvalProofs StdInterp Contr ContrProofs IbexConv IbexConvProofs ContrTop Icp IcpProofs IcpTop IcpPar IcpParProofs IcpParTop Filter FilterProofs Theory ExplainProofs TheoryProofs TheoryUsed TheoryTop
  ExamplesForm ExamplesBox ExamplesEval ExamplesContr ExamplesIcp.
Import ListNotations.
Local Open Scope R_scope.
#[local] Opaque dZ mkd.

(** x in [0,4], n in [-3,8], y in [0,4]: y <= 3, n >= 2.5, x + n >= 8, x + n <= 7: the first two play no part. *)
Definition exb3 : box := mkBox [vx; vi; vy] [IV (dZ 0) (dZ 4); IV (dZ (-3)) (dZ 8); IV (dZ 0) (dZ 4)].
Definition f_y3 : formula := FRel RLeq (EVar vy) (EConst (dZ 3)).
Definition fs_th : list formula := [f_y3; FRel RGeq xn (EConst (dZ 8)); FRel RLeq xn (EConst (dZ 7))].
Definition fs_th_sat : list formula := [f_y3; FRel RGeq xn (EConst (dZ 8))].
Definition th_seq (fs : list formula) : option tres :=
  theory_check plain_sub plain_neg 10 false false (search_seq lib_orc default_term 20 icp_ev ibex_mid half 2000 true fs) exb3 fs.
Definition th_par (fs : list formula) : option tres :=
  theory_check plain_sub plain_neg 10 false false (search_par lib_orc default_term 20 icp_ev ibex_mid half true 2 (robin 2 2000) fs) exb3 fs.
Definition expl_of (r : option tres) : option nat := match r with Some (TUnsat E) => Some (length E) | _ => None end.
Example th_answers : expl_of (th_seq fs_th) = Some 2%nat /\ expl_of (th_par fs_th) = Some 2%nat /\ expl_of (th_seq fs_th_sat) = None.
Proof. vm_compute. auto. Qed.
Example th_leaves_out : match th_seq fs_th with Some (TUnsat E) => mem_form f_y3 E | _ => true end = false.
Proof. vm_compute. reflexivity. Qed.
Lemma exb3_ok : box_ok exb3.
Proof.
  split; [|split; [reflexivity|]].
  - repeat (constructor; [cbn; intuition discriminate|]). constructor.
  - repeat (constructor; [vm_compute; auto|]). constructor.
Qed.
Lemma exb3_range : int_range exb3.
Proof.
  intros [|[|[|i]]] v x E T H; cbn [nth_error exb3 bvars] in E; [|injection E as <-| |destruct i; discriminate].
  - injection E as <-. discriminate.
  - cbn [exb3 b_get bvals nth imem] in H. assert (E1 : d2e (dZ (-3)) = Fin (-3)) by (destruct (dZ_exact (-3)) as [F G]; [lia|]; rewrite (finite_d2e _ F), G; reflexivity).
    assert (E2 : d2e (dZ 8) = Fin 8) by (destruct (dZ_exact 8) as [F G]; [lia|]; rewrite (finite_d2e _ F), G; reflexivity).
    rewrite E1, E2 in H. cbn [ext_le] in H. apply Rabs_le. lra.
  - injection E as <-. discriminate.
Qed.
Lemma th_hyps f : In f fs_th -> (forall v, In v (fvF f) -> In v (bvars exb3)) /\ finF f /\
  (forall c, lit_ctc plain_sub plain_neg 10 (bvars exb3) f = Some c -> c_ok Mstd stdD lib_orc (bvars exb3) c) /\
  evaluator_local Mstd stdD icp_ev f (bvars exb3).
Proof.
  assert (F1 : finE xn) by (cbn [finE xn fold_right ex_x]; repeat split; auto). intros H.
  assert (Hv : forall v, In v (fvF f) -> In v (bvars exb3)).
  { intros v Hv. cbn [fs_th In] in H. repeat destruct H as [<-|H]; try contradiction; simpl in Hv; simpl; intuition congruence. }
  assert (Hs : side_ok Mstd stdD plain_sub f).
  { cbn [fs_th In] in H. repeat destruct H as [<-|H]; try contradiction; intros e1 e2 [= <- <-]; apply plain_sub_ok; first [exact I|exact F1|vm_compute; reflexivity]. }
  split; auto. split; [|split].
  - cbn [fs_th In] in H. repeat destruct H as [<-|H]; try contradiction; (split; [first [exact I|exact F1]|vm_compute; reflexivity]).
  - intros c. apply (lit_ctc_ok Mstd stdD lib plain_sub plain_neg 10 (fun _ _ => None)); auto; [apply lib_ok|apply plain_neg_ok|apply std_sqrt_ok|].
    intros C. cbn [fs_th In] in H. repeat destruct H as [<-|H]; try contradiction; discriminate C.
  - apply evaluator_local_of; auto; [apply lin_ok|apply Mstd_rc].
Qed.

#[local] Transparent mkd.
(** ** Polytope contraction: it runs after the integer contractor, so an integer dimension can end up
    strictly between two integers; splitting it yields two empty halves and no witness. *)
Definition exi : box := mkBox [vi] [IV (dZ 0) (dZ 1)].
Definition e1024 : expr := EAdd dzero [(EVar vi, dZ 1024)].
Definition fs_p : list formula := [FRel RGeq e1024 (EConst (dZ 1)); FRel RLeq e1024 (EConst (dZ 1023))].
Definition ip : ival := IV (mkd 1 (-10)) (mkd 1023 (-10)).
Definition form_list_eqb (a b : list formula) : bool := if list_eq_dec formula_eq_dec a b then true else false.
Definition poly_orc : oracles := {|
  o_bwd := fun _ b => (true, bvals b);
  o_poly := fun fs b => if form_list_eqb fs fs_p then [i_inter (b_get b 0) ip] else bvals b;
  o_fa := fun _ _ => None |}.
Definition tight_precision : dbl := mkd 1 (-10).
Lemma exi_ok : box_ok exi.
Proof. split; [repeat constructor; intros []|split; [reflexivity|]]. constructor; [vm_compute; auto|constructor]. Qed.
Lemma ip_spec x : imem x ip <-> 1 <= 1024 * x <= 1023.
Proof.
  assert (A : d2e (mkd 1 (-10)) = Fin (/ 1024)) by (rewrite finite_d2e by reflexivity; f_equal; unfold mkd; cbn; unfold F2R; cbn; lra).
  assert (B : d2e (mkd 1023 (-10)) = Fin (1023 / 1024)) by (rewrite finite_d2e by reflexivity; f_equal; unfold mkd; cbn; unfold F2R; cbn; lra).
  unfold ip. cbn [imem]. rewrite A, B. cbn [ext_le]. lra.
Qed.
#[local] Opaque mkd.
Lemma poly_orc_ok : (forall f, In f fs_p -> fwd_ok Mstd stdD poly_orc f (bvars exi)) /\ poly_ok Mstd stdD poly_orc fs_p (bvars exi).
Proof.
  split.
  - intros f _ b K Ev. cbn [poly_orc o_bwd fst snd]. split; auto. split; auto. split; [apply K|]. split; [intros i x H; exact H|]. split; [intros rho HB _; destruct b; exact HB|].
    intros F. right. split; [exact F|]. intros i v _ _. reflexivity.
  - intros b K Ev. cbn [poly_orc o_poly]. replace (form_list_eqb fs_p fs_p) with true by (unfold form_list_eqb; destruct (list_eq_dec formula_eq_dec fs_p fs_p); congruence).
    assert (L : length (bvals b) = 1%nat) by (destruct K as (_ & L & _); rewrite L, Ev; reflexivity).
    assert (Ki : i_ok ip) by (vm_compute; auto). pose proof (box_ok_get b 0 K) as K0.
    pose proof (fun x => i_inter_mem x (b_get b 0) ip) as Im. pose proof (i_inter_ok (b_get b 0) ip) as Io.
    destruct b as [vs [|a [|a' l]]]; try discriminate. cbn [b_get bvals nth bvars] in *. subst vs.
    split; auto. split; [constructor; auto|]. split; [|split].
    + intros [|i] x H; [apply Im; auto|destruct i; destruct H].
    + intros rho HB HS.
      assert (E1 : forall z, (Z.abs z <= 2 ^ 53)%Z -> B2R (dZ z) = IZR z) by (intros; apply dZ_exact; auto).
      assert (V : evalE Mstd e1024 rho = 1024 * rho vi) by (cbn [evalE e1024 fold_right fst snd]; rewrite (E1 1024%Z) by lia; change (B2R dzero) with 0; lra).
      assert (H1 : relR RGeq (evalE Mstd e1024 rho) (B2R (dZ 1))) by (apply (HS (FRel RGeq e1024 (EConst (dZ 1)))); left; auto).
      assert (H2 : relR RLeq (evalE Mstd e1024 rho) (B2R (dZ 1023))) by (apply (HS (FRel RLeq e1024 (EConst (dZ 1023)))); right; left; auto).
      rewrite V, E1 in H1 by lia. rewrite V, E1 in H2 by lia. cbn [relR] in *.
      assert (X : imem (rho vi) (i_inter a ip)) by (apply Im; auto; split; [apply (proj2 HB 0%nat vi); reflexivity|apply ip_spec; lra]).
      split; [unfold b_empty; cbn [bvals]; destruct (i_inter a ip); [destruct X|reflexivity]|].
      intros i v Hv. cbn [bvars] in Hv. destruct i as [|i]; [|destruct i; discriminate]. injection Hv as <-. exact X.
    + intros _. destruct (i_inter a ip) as [|li ui]; [left; repeat constructor|right]. split; [repeat constructor|].
      intros [|i] v Hv N; [|destruct i; discriminate]. exfalso. injection Hv as <-. apply (N (FRel RGeq e1024 (EConst (dZ 1)))); [left; auto|]. cbn. auto.
Qed.
Example th_poly_answer : theory_check plain_sub plain_neg 10 false true (search_seq poly_orc default_term 20 icp_ev ibex_mid tight_precision 200 true fs_p) exi fs_p = Some (TUnsat []).
Proof. match goal with |- ?t = _ => assert (X : expl_of t = Some 0%nat) by (vm_compute; reflexivity); destruct t as [[b|[|f l]]|]; try discriminate X; reflexivity end. Qed.
Lemma exi_point : well_typed (fun _ => 0) /\ in_box (fun _ => 0) exi.
Proof.
  split.
  - intros v. destruct (vty v); cbn; auto. exists 0%Z. auto.
  - split; [reflexivity|]. intros [|i] v E; [|destruct i; discriminate]. cbn [b_get exi bvals nth imem].
    assert (E1 : forall z, (Z.abs z <= 2 ^ 53)%Z -> d2e (dZ z) = Fin (IZR z)) by (intros z Hz; destruct (dZ_exact z Hz) as [F G]; rewrite (finite_d2e _ F), G; reflexivity).
    rewrite !E1 by lia. cbn [ext_le]. lra.
Qed.
