(** Histories of a context, with components meeting the hypotheses. *)
From Coq Require Import ZArith Reals Lra Lia List Bool Arith.
From Flocq Require Import Core.Core IEEE754.BinarySingleNaN.
From Verif Require Import Dbl DblProofs Syntax Sem SemProofs Interval IntervalProofs MathConv MathConvProofs SpecForm FormulaCons Nnf
  IEval IEvalProofs StdInterp Contr ContrProofs IbexConv IbexConvProofs ContrTop Icp IcpProofs IcpTop IcpPar IcpParProofs IcpParTop Filter FilterProofs Theory ExplainProofs TheoryProofs TheoryUsed TheoryTop
  Regular Wff WffProofs Scoped PredAbs PredAbsProofs SatSem CdclProofs IteElim SpecIte Sat Context CtxStruct SpecCtx CtxTop SatReach
  ExamplesForm ExamplesBox ExamplesEval ExamplesContr ExamplesIcp ExamplesTheory ExamplesIte.
Import ListNotations.
#[local] Opaque dZ mkd.

(** A SAT solver that tries every assignment. *)
Fixpoint assignments (k : nat) : list (list bool) :=
  match k with 0 => [[]] | S k' => flat_map (fun l => [true :: l; false :: l]) (assignments k') end.
Definition max_var (cls : list pclause) : nat := fold_right Nat.max 0 (map fst (concat cls)).
Definition meets (l : list bool) (cls : list pclause) : bool := forallb (existsb (fun x => Bool.eqb (nth (fst x) l false) (snd x))) cls.
Definition brute : pico_t := fun _ _ cls _ =>
  match find (fun l => meets l cls) (assignments (S (max_var cls))) with Some l => PSat (fun i => Some (nth i l false)) | None => PUnsat end.
Lemma assignments_all l : In l (assignments (length l)).
Proof. induction l as [|b l IH]; [left; reflexivity|]. cbn [length assignments]. apply in_flat_map. exists l. split; [exact IH|]. destruct b; [left|right; left]; reflexivity. Qed.
Lemma fold_max_ge x xs : In x xs -> x <= fold_right Nat.max 0 xs.
Proof. induction xs as [|y xs IH]; intros H; [destruct H|]. cbn [fold_right]. destruct H as [<-|H]; [apply Nat.le_max_l|]. etransitivity; [exact (IH H)|apply Nat.le_max_r]. Qed.
Lemma max_var_ge cls L l : In L cls -> In l L -> fst l <= max_var cls.
Proof. intros H1 H2. apply fold_max_ge, in_map, in_concat. eauto. Qed.
Lemma brute_ok : pico_ok brute.
Proof.
  intros t p cls mx. unfold brute. destruct (find _ _) as [l|] eqn:E.
  - apply find_some in E. destruct E as [_ E]. unfold meets in E. rewrite forallb_forall in E. intros L HL. specialize (E L HL).
    apply existsb_exists in E. destruct E as (x & Hx & Ex). exists x. split; [exact Hx|]. unfold lit_sat. apply Bool.eqb_prop in Ex. now rewrite Ex.
  - intros (a & Ha). set (l := map a (seq 0 (S (max_var cls)))).
    assert (Hl : In l (assignments (S (max_var cls)))) by (assert (X : length l = S (max_var cls)) by (unfold l; rewrite map_length, seq_length; reflexivity); rewrite <- X; apply assignments_all).
    pose proof (find_none _ _ E l Hl) as N. cbn beta in N. assert (Y : meets l cls = true); [|congruence].
    unfold meets. apply forallb_forall. intros L HL. apply existsb_exists. destruct (Ha L HL) as (x & Hx & Ex). exists x. split; [exact Hx|].
    rewrite <- Ex. assert (Z : nth (fst x) l false = a (fst x)).
    { unfold l. rewrite (nth_indep _ false (a 0)) by (rewrite map_length, seq_length; pose proof (max_var_ge cls L x HL Hx); lia).
      rewrite map_nth, seq_nth by (pose proof (max_var_ge cls L x HL Hx); lia). reflexivity. }
    rewrite Z. apply Bool.eqb_reflx.
Qed.

Definition ex_T : nat -> box -> list formula -> option tres :=
  solver_seq plain_sub plain_neg 10 lib_orc default_term 20 icp_ev ibex_mid half false (fun _ => 2000) (fun _ => true).
Definition ex_P : nat -> box -> list formula -> option tres :=
  solver_par plain_sub plain_neg 10 lib_orc default_term 20 icp_ev ibex_mid half false (fun _ => true) 2 (fun _ => robin 2 2000).
Definition run_ex T ops := cx_run nofold kplain brute T ibex_mid half ops (cx_init 10).
Definition verdicts (r : option (ctx * list (option box))) : option (list bool) := option_map (fun x => map (fun o => match o with Some _ => true | None => false end) (snd x)) r.

(** x in [0,4], n in [-3,8], b Boolean: x + n >= 8 or b; not b; then, in a scope, x + n <= 7: unsat; without it: delta-sat. *)
Definition ops1 : list cop :=
  [ODeclareDom vx (dZ 0) (dZ 4) true; ODeclareDom vi (dZ (-3)) (dZ 8) true; ODeclare vb true;
   OAssert (FOr [FRel RGeq xn (EConst (dZ 8)); FVar vb]); OAssert (FNot (FVar vb));
   OPush; OAssert (FRel RLeq xn (EConst (dZ 7))); OCheck 20; OPop; OCheck 20].
Example ops1_runs : verdicts (run_ex ex_T ops1) = Some [false; true] /\ verdicts (run_ex ex_P ops1) = Some [false; true].
Proof. vm_compute. auto. Qed.

Lemma dZ_ext z : (Z.abs z <= 2 ^ 53)%Z -> d2e (dZ z) = Fin (IZR z).
Proof. intros H. destruct (dZ_exact z H) as [F G]. rewrite (finite_d2e _ F), G. reflexivity. Qed.
Lemma dZ_R z : (Z.abs z <= 2 ^ 53)%Z -> B2R (dZ z) = IZR z. Proof. intros H. apply dZ_exact, H. Qed.
Lemma dZ_fin z : (Z.abs z <= 2 ^ 53)%Z -> is_finite (dZ z) = true. Proof. intros H. apply dZ_exact, H. Qed.
Lemma dZ_nan z : (Z.abs z <= 2 ^ 53)%Z -> is_nan (dZ z) = false. Proof. intros H. apply dZ_fin in H. destruct (dZ z); try discriminate; reflexivity. Qed.
Lemma plain_ite f : ite_exact Mstd stdD nofold kplain f.
Proof.
  intros m. split; [|intros; apply nofold_exact]. intros x _. split; [apply kplain_exact|].
  unfold node_fin. assert (E : rebuild kplain x = x) by (destruct x; reflexivity). rewrite E. split; [auto|split; [apply incl_refl|auto]].
Qed.
Lemma dom_ok_of v a b : (Z.abs a <= 9007199254740991)%Z -> (Z.abs b <= 9007199254740991)%Z -> dom_ok v (dZ a) (dZ b).
Proof.
  intros Ha Hb. split; [apply dZ_nan; lia|]. split; [apply dZ_nan; lia|]. intros _ x [H1 H2]. rewrite dZ_ext in H1, H2 by lia. cbn [ext_le] in H1, H2.
  apply Z.abs_le in Ha, Hb. destruct Ha as [Ha _], Hb as [_ Hb]. apply IZR_le in Ha, Hb. rewrite opp_IZR in Ha. apply Rabs_le. lra.
Qed.
Lemma ops1_adm : admissible Mstd stdD nofold kplain 10 ops1 [] (p_empty, []).
Proof.
  assert (W : forall z, (Z.abs z <= 2 ^ 53)%Z -> is_finite (dZ z) = true) by exact dZ_fin.
  unfold ops1, xn, ex_x. cbn [admissible op_ok p_step news_step fst snd admissible_q op_ok_q].
  repeat match goal with
  | |- _ /\ _ => split
  | |- True => exact I
  | |- known _ _ _ => left; cbn; lia
  | |- dom_ok _ _ _ => apply dom_ok_of; lia
  | |- declared _ _ -> redomain_ok _ _ _ _ => intros _; left; reflexivity
  | |- ite_exact _ _ _ _ _ => apply plain_ite
  | |- wfF _ _ _ _ => cbn [wfF wfE fold_right]
  | |- declared _ _ => cbn; auto 10
  | |- is_finite dzero = true => reflexivity
  | |- is_finite (dZ _) = true => apply W; lia
  | |- vty _ = _ => reflexivity
  | |- vty _ <> _ => discriminate
  end.
Qed.

(** ** Unsat answers that are wrong *)
Definition at5 : env := fun v => if var_eqb v vx then 5%R else 0%R.
Lemma at5_typed : well_typed at5.
Proof. intros v. unfold at5. destruct (var_eqb v vx) eqn:E; [apply var_eqb_eq in E; subst; exact I|]. destruct (vty v); cbn; auto. exists 0%Z. reflexivity. Qed.
(** x in [0,1], x >= 2 or x <= -1: unsat; then the domain of x is set to [0,10]. *)
Definition xc (o : relop) (z : Z) : formula := FRel o (EVar vx) (EConst (dZ z)).
Definition ops_stale : list cop := [ODeclareDom vx (dZ 0) (dZ 1) true; OAssert (FOr [xc RGeq 2; xc RLeq (-1)]); OCheck 20; OSetInterval vx (dZ 0) (dZ 10); OCheck 20].
Example stale_runs : verdicts (run_ex ex_T ops_stale) = Some [false; false].
Proof. vm_compute. reflexivity. Qed.
(** y in [0,1], x in [0,1]: x >= 2 empties the box; then the domain of x is set to [0,10]. *)
Definition ops_emptied : list cop := [ODeclareDom vy (dZ 0) (dZ 1) true; ODeclareDom vx (dZ 0) (dZ 1) true; OAssert (xc RGeq 2); OSetInterval vx (dZ 0) (dZ 10); OCheck 20].
Example emptied_runs : verdicts (run_ex ex_T ops_emptied) = Some [false].
Proof. vm_compute. reflexivity. Qed.
Lemma ext_lt_irr a : ~ ext_lt a a.
Proof. unfold ext_lt. destruct a; cbn; intuition lra. Qed.
Lemma gap_dbl c d x : is_finite c = true -> is_nan d = false -> d2e d = Fin x -> ~ gap c x.
Proof.
  intros F N E [[H1 H2]|[H1 H2]]; rewrite <- E in H1, H2.
  - pose proof (ext_le_lt_trans _ _ _ (Bsucc_least c d F N H1) H2) as H. exact (ext_lt_irr _ H).
  - pose proof (ext_lt_le_trans _ _ _ H1 (Bpred_greatest c d F N H2)) as H. exact (ext_lt_irr _ H).
Qed.
Lemma xc_regular o z r : (Z.abs z <= 2 ^ 53)%Z -> (Z.abs r <= 2 ^ 53)%Z -> forall rho, rho vx = IZR r -> regular Mstd stdD (xc o z) rho.
Proof.
  intros Hz Hr rho E. cbn [xc]. unfold regular. cbn [regF regE]. split; [split; exact I|]. cbn [evalE]. rewrite E. intros _. split; intros c Hc; cbn [consts_of] in Hc.
  - destruct Hc as [<-|[]]. apply (gap_dbl _ (dZ r)); [apply dZ_fin; exact Hz|apply dZ_nan; exact Hr|apply dZ_ext; exact Hr].
  - contradiction.
Qed.
Lemma answers_of ops T vs : verdicts (run_ex T ops) = Some vs -> exists c a, run_ex T ops = Some (c, a) /\ vs = map (fun o => match o with Some _ => true | None => false end) a.
Proof. unfold verdicts. destruct (run_ex T ops) as [[c a]|]; cbn [option_map snd]; [|discriminate]. intros [= <-]. eauto. Qed.
Lemma all_none a vs : map (fun o : option box => match o with Some _ => true | None => false end) a = vs -> Forall (fun b => b = false) vs -> Forall (fun o => o = None) a.
Proof. intros <-. induction a as [|[m|] a IH]; cbn [map]; intros H; inversion H; subst; constructor; auto. discriminate. Qed.
Lemma stale_wrong : exists c a, run_ex ex_T ops_stale = Some (c, a) /\
  ~ Forall2 (fun q r => r = None -> ~ exists rho, solution Mstd stdD q rho) (problems ops_stale (p_empty, [])) a.
Proof.
  destruct (answers_of _ _ _ stale_runs) as (c & a & E & V). exists c, a. split; [exact E|]. intros F.
  symmetry in V. apply all_none in V; [|repeat constructor]. cbn [ops_stale problems p_step fst] in F.
  inversion F as [|? r1 ? l1 _ F1 X1 Y1]; subst. inversion F1 as [|? r2 ? l2 H2 _ X2 Y2]; subst. inversion V as [|? ? _ V1]; subst. inversion V1 as [|? ? V2 _]; subst.
  apply (H2 eq_refl). exists at5. split; [exact at5_typed|]. split.
  - intros v d Hd. cbn in Hd. destruct Hd as [Hd|[]]. injection Hd as <- <-. unfold between, at5. rewrite !dZ_ext by lia. cbn. lra.
  - intros f [<-|[]]. split.
    + assert (X : forall o z, (Z.abs z <= 2 ^ 53)%Z -> regular Mstd stdD (xc o z) at5) by (intros o z Hz; apply (xc_regular _ _ 5); [exact Hz|lia|reflexivity]).
      split; [apply X; lia|]. split; [apply X; lia|exact I].
    + cbn [holds fold_right xc relR evalE at5]. left. unfold at5. cbn [var_eqb]. rewrite dZ_R by lia. cbn. lra.
Qed.
Lemma emptied_wrong : exists c a, run_ex ex_T ops_emptied = Some (c, a) /\
  ~ Forall2 (fun q r => r = None -> ~ exists rho, solution Mstd stdD q rho) (problems ops_emptied (p_empty, [])) a.
Proof.
  destruct (answers_of _ _ _ emptied_runs) as (c & a & E & V). exists c, a. split; [exact E|]. intros F.
  symmetry in V. apply all_none in V; [|repeat constructor]. cbn [ops_emptied problems p_step fst] in F.
  inversion F as [|? r1 ? l1 H2 F1 X1 Y1]; subst. inversion V as [|? ? V2 _]; subst.
  apply (H2 eq_refl). exists at5. split; [exact at5_typed|]. split.
  - intros v d Hd. cbn in Hd. destruct Hd as [Hd|[Hd|[]]]; injection Hd as <- <-; unfold between, at5; rewrite !dZ_ext by lia; cbn; lra.
  - intros f [<-|[]]. split; [apply (xc_regular _ _ 5); try lia; reflexivity|].
    cbn [holds xc relR evalE]. unfold at5. rewrite dZ_R by lia. cbn. lra.
Qed.

(** n unbounded, n >= 3000000000: unsat, since the box of an Int variable is limited to the range of int. *)
Definition ops_int : list cop := [ODeclare vi true; OAssert (FRel RGeq (EVar vi) (EConst (dZ 3000000000))); OCheck 20].
Example int_runs : verdicts (run_ex ex_T ops_int) = Some [false].
Proof. vm_compute. reflexivity. Qed.
(** x > 1 and x < 1 + 2^-52: unsat, since no double lies between. *)
Definition ops_strict : list cop := [ODeclareDom vx (dZ 0) (dZ 4) true; OAssert (xc RGt 1); OAssert (FRel RLt (EVar vx) (EConst (mkd 4503599627370497 (-52)))); OCheck 20].
Example strict_runs : verdicts (run_ex ex_T ops_strict) = Some [false].
Proof. vm_compute. reflexivity. Qed.
Lemma int_wrong : exists c, run_ex ex_T ops_int = Some (c, [None]) /\
  exists rho, well_typed rho /\ holds Mstd (FRel RGeq (EVar vi) (EConst (dZ 3000000000))) rho.
Proof.
  destruct (answers_of _ _ _ int_runs) as (c & a & E & V). exists c. destruct a as [|[m|] [|? ?]]; try discriminate V. split; [exact E|].
  exists (fun v => match vty v with INTEGER => 3000000000%R | _ => 0%R end). split.
  - intros v. destruct (vty v); cbn; auto. exists 3000000000%Z. reflexivity.
  - cbn [holds relR evalE vi vty]. rewrite dZ_R by lia. lra.
Qed.
Lemma strict_wrong : exists c, run_ex ex_T ops_strict = Some (c, [None]) /\
  exists rho, well_typed rho /\ between (dZ 0) (dZ 4) (rho vx) /\ holds Mstd (xc RGt 1) rho /\ holds Mstd (FRel RLt (EVar vx) (EConst (mkd 4503599627370497 (-52)))) rho.
Proof.
  destruct (answers_of _ _ _ strict_runs) as (c & a & E & V). exists c. destruct a as [|[m|] [|? ?]]; try discriminate V. split; [exact E|].
  exists (fun v => match vty v with CONTINUOUS => (1 + / 9007199254740992)%R | _ => 0%R end). split; [|split; [|split]].
  - intros v. destruct (vty v); cbn; auto. exists 0%Z. reflexivity.
  - unfold between. rewrite !dZ_ext by lia. cbn [ext_le vx vty]. lra.
  - cbn [xc holds relR evalE vx vty]. rewrite dZ_R by lia. lra.
  - cbn [holds relR evalE vx vty]. assert (X : B2R (mkd 4503599627370497 (-52)) = (4503599627370497 / 4503599627370496)%R).
    { Local Transparent mkd. unfold mkd. cbn. unfold F2R. cbn. lra. }
    rewrite X. lra.
Qed.

(** ** The SAT/theory loop on its own: x >= 2 or x <= -1, with x in [0,1] and with x in [0,10] *)
Definition loop_ex (u : Z) : option (option box * satst * nat * nat) :=
  bind (sat_add_formula nofold (FOr [xc RGeq 2; xc RLeq (-1)]) 10 sat_init) (fun q =>
    core_loop nofold brute ex_T 20 (mkBox [vx] [IV (dZ 0) (dZ u)]) (fst q) (snd q) 0).
Definition loop_res (u : Z) : option (bool * nat) :=
  option_map (fun r => match r with (ob, s, _, _) => (match ob with Some _ => true | None => false end, length (sv_vec (ss_clauses s))) end) (loop_ex u).
Example loop_runs : loop_res 1 = Some (false, 3) /\ loop_res 10 = Some (true, 3).
Proof. vm_compute. auto. Qed.
Lemma loop_reach : exists s n, sat_add_formula nofold (FOr [xc RGeq 2; xc RLeq (-1)]) 10 sat_init = Some (s, n) /\ sat_reach nofold brute ex_T s n.
Proof.
  pose proof (proj1 loop_runs) as H. unfold loop_res, loop_ex in H.
  destruct (sat_add_formula nofold (FOr [xc RGeq 2; xc RLeq (-1)]) 10 sat_init) as [[s n]|] eqn:E; [|discriminate H]. exists s, n. split; [reflexivity|].
  apply (sr_add nofold brute ex_T sat_init 10 (FOr [xc RGeq 2; xc RLeq (-1)]) s n); [apply sr_init| | |exact E].
  - apply ro_or. intros g [<-|[<-|[]]]; apply ro_rel; reflexivity.
  - intros v [<-|[<-|[]]]; cbn; lia.
Qed.
Lemma ex_T_sub t b fs E : ex_T t b fs = Some (TUnsat E) -> incl E fs.
Proof. intros Et. unfold ex_T, solver_seq in Et. eapply theory_used; [|exact Et]. apply seq_search_used. Qed.

(** The domain of x is made smaller after an assertion and a check. *)
Definition ops_narrow : list cop := [ODeclareDom vx (dZ 0) (dZ 10) true; OAssert (FOr [xc RGeq 2; xc RLeq (-1)]); OCheck 20; OSetInterval vx (dZ 0) (dZ 1); OCheck 20].
Example narrow_runs : verdicts (run_ex ex_T ops_narrow) = Some [true; false].
Proof. vm_compute. reflexivity. Qed.
Lemma narrow_adm : admissible Mstd stdD nofold kplain 10 ops_narrow [] (p_empty, []).
Proof.
  unfold ops_narrow. cbn [admissible op_ok p_step news_step fst snd admissible_q op_ok_q].
  assert (W : forall p o z, declared p vx -> (Z.abs z <= 2 ^ 53)%Z -> wfF (fun v => declared p v /\ vty v <> BOOLEAN) (fun v => declared p v /\ vty v = BOOLEAN) (fun v => False /\ known 10 [] v) (xc o z))
    by (intros p o z Hp Hz; cbn [xc wfF wfE]; split; [split; [exact Hp|discriminate]|apply dZ_fin; exact Hz]).
  split; [|split; [|split; [exact I|split; [|split; exact I]]]].
  - split; [left; cbn; lia|]. split; [intros _; left; reflexivity|apply dom_ok_of; lia].
  - split; [|apply plain_ite]. cbn [wfF fold_right]. repeat split; try (apply dZ_fin; lia); try discriminate; cbn; auto.
  - split; [cbn; auto|]. split; [|apply dom_ok_of; lia]. right. intros d x Hd [H1 H2]. cbn in Hd. destruct Hd as [Hd|[]]. injection Hd as <-.
    rewrite dZ_ext in H1, H2 by lia. unfold between. rewrite !dZ_ext by lia. cbn [ext_le] in *. lra.
Qed.
(** Nested scopes with declarations, assertions and checks inside. *)
Definition pre24 : list cop := [ODeclareDom vx (dZ 0) (dZ 10) true; OAssert (FOr [xc RGeq 2; xc RLeq (-1)])].
Definition body24 : list cop := [ODeclareDom vi (dZ (-3)) (dZ 8) true; OAssert (FRel RGeq xn (EConst (dZ 8))); OPush; OAssert (FRel RLeq xn (EConst (dZ 7))); OCheck 20; OPop; OCheck 20].
Lemma body24_ok : balanced 0 body24 /\ verdicts (run_ex ex_T (pre24 ++ OPush :: body24)) = Some [false; true].
Proof. split; [cbn; reflexivity|vm_compute; reflexivity]. Qed.
