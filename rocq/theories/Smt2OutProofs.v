(** * Proofs about the output of a script *)
From Coq Require Import ZArith Reals Lra Lia List Bool Znumtheory.
From Flocq Require Import Core.Core IEEE754.BinarySingleNaN.
From Verif Require Import Dbl DblProofs Syntax Sem SemProofs FormulaCons Interval IntervalProofs MathConv IEval IEvalProofs ExprAlg Scoped Contr Icp Theory Filter MathConvProofs IteElim Sat Context SpecModel Smt2 Smt2Out SpecOut.
Import ListNotations.
Local Notation R := Rdefinitions.R.

Lemma set_box_model b c c' : cx_set_box b c = Some c' -> cx_model c' = cx_model c.
Proof. unfold cx_set_box. destruct (sv_set_last _ _) as [[? ?]| |]; intros [= <-]; auto. Qed.
Lemma Some_inj {A} (x y : A) : Some x = Some y -> x = y.
Proof. congruence. Qed.
Section Out.
  Variables (fold : expr -> expr -> option dbl) (K : eops) (pico : pico_t) (T : nat -> box -> list formula -> option tres) (mid : dbl -> dbl -> dbl) (precision : dbl).
  Variables (A : iarith) (compliant produce : bool).
  Notation step := (cx_step fold K pico T mid precision).
  Notation run := (cx_run fold K pico T mid precision).
  Notation orun := (o_run fold K pico T mid precision A compliant produce).
  Definition says_last (last : option (option box)) (c : ctx) : Prop :=
    match last with None => cx_model c = box0 | Some None => b_empty (cx_model c) = true | Some (Some m) => cx_model c = m end.
  Lemma b_empty_set b : b_empty (b_set_empty b) = true.
  Proof. unfold b_empty, b_set_empty. cbn [bvals]. destruct (bvals b); reflexivity. Qed.
  Ltac ob H := repeat match type of H with
    | IEval.bind ?x _ = Some _ => let E := fresh "E" in destruct x eqn:E; cbn [IEval.bind] in H; [|discriminate H]
    end.
  Lemma step_check k c c' a : step (OCheck k) c = Some (c', a) -> exists r, a = [r] /\ says_last (Some r) c'.
  Proof.
    cbn [cx_step]. unfold cx_check. intros H. destruct (check_core fold pico T k c) as [[[b|] c1]|]; cbn [IEval.bind] in H; [| |discriminate].
    - destruct (tighten mid precision b) as [b1|]; cbn [IEval.bind] in H; [|discriminate]. apply Some_inj in H. apply pair_equal_spec in H. destruct H as [<- <-].
      eexists. split; [reflexivity|]. reflexivity.
    - apply Some_inj in H. apply pair_equal_spec in H. destruct H as [<- <-]. eexists. split; [reflexivity|]. apply b_empty_set.
  Qed.
  Lemma declare_model v m c c' : cx_declare v m c = Some c' -> cx_model c' = cx_model c.
  Proof.
    unfold cx_declare. intros H. destruct (cx_box c); cbn [IEval.bind] in H; [|discriminate]. destruct (cx_set_box _ c) as [c1|] eqn:E; cbn [IEval.bind] in H; [|discriminate].
    apply set_box_model in E. apply Some_inj in H. subst c'. destruct (m && _); auto.
  Qed.
  Lemma interval_model v l u c c' : cx_set_interval v l u c = Some c' -> cx_model c' = cx_model c.
  Proof. unfold cx_set_interval. intros H. destruct (cx_box c); cbn [IEval.bind] in H; [|discriminate]. now apply set_box_model in H. Qed.
  Lemma assert_model f c c' : cx_assert fold K f c = Some c' -> cx_model c' = cx_model c.
  Proof.
    unfold cx_assert. intros H. destruct (is_true f); [apply Some_inj in H; now subst|]. destruct (cx_box c) as [b|]; cbn [IEval.bind] in H; [|discriminate].
    destruct (b_empty b); [apply Some_inj in H; now subst|]. destruct (is_false f); [now apply set_box_model in H|]. destruct (filter_assertion f b) as [p|]; cbn [IEval.bind] in H; [|discriminate].
    destruct (fst p); try (now apply set_box_model in H). destruct (ite_process _ _ _ _) as [g s].
    destruct (cx_set_box _ c) as [c1|] eqn:E; cbn [IEval.bind] in H; [|discriminate]. destruct (sat_add_formula _ _ _ _); cbn [IEval.bind] in H; [|discriminate].
    apply Some_inj in H. subst c'. apply set_box_model in E. exact E.
  Qed.
  Lemma core_model k c r c' : check_core fold pico T k c = Some (r, c') -> cx_model c' = cx_model c.
  Proof.
    unfold check_core. intros H. destruct (cx_box c) as [b|]; cbn [IEval.bind] in H; [|discriminate].
    destruct (b_empty b); [apply Some_inj, pair_equal_spec in H; destruct H; now subst|]. destruct (existsb _ _); [apply Some_inj, pair_equal_spec in H; destruct H; now subst|].
    destruct (sv_vec (cx_stack c)) as [|g l]; [apply Some_inj, pair_equal_spec in H; destruct H; now subst|].
    destruct (match l with [] => is_true g | _ => false end); [apply Some_inj, pair_equal_spec in H; destruct H; now subst|].
    destruct (core_loop _ _ _ _ _ _ _ _) as [[[[ob s] nx] t]|]; cbn [IEval.bind] in H; [|discriminate]. apply Some_inj, pair_equal_spec in H. destruct H as [_ <-]. reflexivity.
  Qed.
  Lemma step_other o c c' a : (forall k, o <> OCheck k) -> step o c = Some (c', a) -> a = [] /\ cx_model c' = cx_model c.
  Proof.
    intros N H. destruct o; cbn [cx_step] in H; try (destruct (N _ eq_refl)).
    - destruct (Nat.eqb _ _); [|discriminate]. apply Some_inj in H. apply pair_equal_spec in H. destruct H as [<- <-]. auto.
    - destruct (cx_declare v model c) eqn:E; cbn [IEval.bind] in H; [|discriminate]. apply Some_inj in H. apply pair_equal_spec in H. destruct H as [<- <-]. split; auto. now apply declare_model in E.
    - destruct (cx_declare v model c) eqn:E; cbn [IEval.bind] in H; [|discriminate]. destruct (cx_set_interval v l u c0) eqn:E1; cbn [IEval.bind] in H; [|discriminate].
      apply Some_inj in H. apply pair_equal_spec in H. destruct H as [<- <-]. split; auto. apply interval_model in E1. apply declare_model in E. congruence.
    - destruct (cx_set_interval v l u c) eqn:E; cbn [IEval.bind] in H; [|discriminate]. apply Some_inj in H. apply pair_equal_spec in H. destruct H as [<- <-]. split; auto. now apply interval_model in E.
    - destruct (cx_assert fold K f c) eqn:E; cbn [IEval.bind] in H; [|discriminate]. apply Some_inj in H. apply pair_equal_spec in H. destruct H as [<- <-]. split; auto. now apply assert_model in E.
    - unfold cx_push in H. destruct (cx_box c); cbn [IEval.bind] in H; [|discriminate]. apply Some_inj in H. apply pair_equal_spec in H. destruct H as [<- <-]. auto.
    - unfold cx_pop in H. destruct (sv_pop (cx_stack c)) as [[? ?]| |]; try discriminate. destruct (sv_pop (cx_boxes c)) as [[? ?]| |]; try discriminate.
      destruct (sat_pop (cx_sat c)); cbn [IEval.bind] in H; [|discriminate]. apply Some_inj in H. apply pair_equal_spec in H. destruct H as [<- <-]. auto.
  Qed.
  Lemma says_keep last c c' : cx_model c' = cx_model c -> says_last last c -> says_last last c'.
  Proof. intros E. destruct last as [[m|]|]; cbn [says_last]; rewrite E; auto. Qed.
  Lemma check_unsat a : (a = None -> print_check compliant produce a = Val LUnsat) /\ (print_check compliant produce a = Val LUnsat -> a = None).
  Proof.
    destruct a as [m|]; cbn [print_check]; split; auto; try discriminate.
    destruct compliant; [discriminate|]. destruct produce; [|discriminate]. destruct (show_dims _); discriminate.
  Qed.
  Theorem run_reports qs : forall c c' lines last, says_last last c -> orun qs c = Some (c', lines) ->
    exists answers, run (calls_of qs) c = Some (c', answers) /\ reports A compliant produce qs answers last lines.
  Proof.
    induction qs as [|q qs IH]; intros c c' lines last HL H; cbn [o_run] in H.
    - apply Some_inj in H. apply pair_equal_spec in H. destruct H as [<- <-]. exists []. repeat split.
    - destruct (o_step fold K pico T mid precision A compliant produce q c) as [[c1 l]|] eqn:E1; [|discriminate].
      destruct (orun qs c1) as [[c2 l']|] eqn:E2; [|discriminate]. apply Some_inj in H. apply pair_equal_spec in H. destruct H as [-> <-].
      destruct q as [o| |ts]; cbn [o_step] in E1.
      + destruct (step o c) as [[c3 a]|] eqn:Es; [|discriminate]. apply Some_inj in E1. apply pair_equal_spec in E1. destruct E1 as [-> <-].
        assert (Go : forall last', says_last last' c1 -> exists answers, run (calls_of qs) c1 = Some (c', answers) /\ reports A compliant produce qs answers last' l') by (intros last' X; apply (IH c1 c' l' last' X E2)).
        assert (Cn : forall answers, run (calls_of qs) c1 = Some (c', answers) -> run (calls_of (CCall o :: qs)) c = Some (c', a ++ answers)).
        { intros answers X. cbn [calls_of flat_map app cx_run]. rewrite Es. cbn [IEval.bind fst snd]. change (flat_map _ qs) with (calls_of qs). rewrite X. reflexivity. }
        assert (Ot : (forall k, o <> OCheck k) -> exists answers, run (calls_of (CCall o :: qs)) c = Some (c', answers) /\ reports A compliant produce qs answers last (map (print_check compliant produce) a ++ l')).
        { intros N. destruct (step_other o c c1 a N Es) as [-> Em]. destruct (Go last (says_keep _ _ _ Em HL)) as (answers & R1 & R2). exists answers. split; [apply (Cn answers R1)|exact R2]. }
        destruct o; try (destruct (Ot ltac:(discriminate)) as (answers & R1 & R2); exists answers; split; [exact R1|exact R2]).
        destruct (step_check _ _ _ _ Es) as (r & -> & Hr). destruct (Go (Some r) Hr) as (answers & R1 & R2). exists (r :: answers). split; [apply (Cn answers R1)|].
        cbn [map app reports]. destruct (check_unsat r). auto.
      + apply Some_inj in E1. apply pair_equal_spec in E1. destruct E1 as [<- <-]. destruct (IH c c' l' last HL E2) as (answers & R1 & R2). exists answers. split; [exact R1|].
        cbn [app reports]. split; auto. unfold print_get_model. destruct last as [[m|]|]; cbn [says_last] in HL; rewrite HL; auto.
      + destruct (values_of A (cx_model c) ts) as [s| | |] eqn:Ev; try discriminate; apply Some_inj in E1; apply pair_equal_spec in E1; destruct E1 as [<- <-];
          destruct (IH c c' l' last HL E2) as (answers & R1 & R2); exists answers; (split; [exact R1|]); cbn [app reports]; (split; [|exact R2]);
          destruct last as [[m|]|]; cbn [says_last] in HL; auto; rewrite <- HL, Ev; auto.
  Qed.
  Theorem run_reports_init n qs c' lines : orun qs (cx_init n) = Some (c', lines) ->
    exists answers, run (calls_of qs) (cx_init n) = Some (c', answers) /\ reports A compliant produce qs answers None lines.
  Proof. apply run_reports. reflexivity. Qed.
End Out.

(** ** Numbers *)
Lemma to_rational_exact d p : to_rational d = Val p -> is_finite d = true /\ rat p = B2R d /\ (0 < snd p)%Z /\ Z.gcd (fst p) (snd p) = 1%Z.
Proof.
  destruct d as [s|s| |s m e H]; cbn [to_rational]; try discriminate.
  - intros [= <-]. split; [reflexivity|]. unfold rat. cbn [fst snd B2R]. split; [lra|]. split; [lia|reflexivity].
  - set (nm := if s then Z.neg m else Z.pos m). intros E. split; [reflexivity|]. cbn [B2R].
    assert (Nm : cond_Zopp s (Z.pos m) = nm) by (destruct s; reflexivity). rewrite Nm. clearbody nm. destruct (Z.leb_spec 0 e) as [He|He].
    + injection E as <-. cbn [fst snd]. unfold rat. cbn [fst snd]. rewrite (F2R_change_exp radix2 0 nm e) by lia. unfold F2R. cbn [Fnum Fexp bpow]. rewrite Z.sub_0_r.
      change (Zpower radix2 e) with (2 ^ e)%Z. split; [lra|]. split; [lia|]. apply Z.gcd_1_r.
    + set (g := Z.gcd nm (2 ^ (- e))) in E. assert (P2 : (0 < 2 ^ (- e))%Z) by (apply Z.pow_pos_nonneg; lia).
      assert (Gp : (0 < g)%Z). { unfold g. pose proof (Z.gcd_nonneg nm (2 ^ (- e))). assert (Z.gcd nm (2 ^ (- e)) <> 0)%Z; [|lia]. intros X. apply Z.gcd_eq_0_r in X. lia. }
      destruct (Z.gcd_divide_l nm (2 ^ (- e))) as [a Ha]. destruct (Z.gcd_divide_r nm (2 ^ (- e))) as [b Hb]. fold g in Ha, Hb.
      assert (Eb : (2 ^ (- e) / g = b)%Z) by (rewrite Hb at 1; apply Z.div_mul; lia). assert (Ea : (nm / g = a)%Z) by (rewrite Ha at 1; apply Z.div_mul; lia).
      rewrite Ea, Eb in E. injection E as <-. unfold rat. cbn [fst snd]. assert (Bp : (0 < b)%Z) by nia. split; [|split; [auto|]].
      * unfold F2R. cbn [Fnum Fexp]. assert (Bw : bpow radix2 e = (/ IZR (2 ^ (- e)))%R). { replace e with (- (- e))%Z at 1 by lia. rewrite bpow_opp. f_equal. symmetry. apply (IZR_Zpower radix2). lia. }
        rewrite Bw, Ha, Hb, !mult_IZR. assert (IZR b <> 0)%R by (apply not_0_IZR; lia). assert (IZR g <> 0)%R by (apply not_0_IZR; lia). field. auto.
      * assert (X := Z.gcd_div_gcd nm (2 ^ (- e)) g ltac:(lia) eq_refl). rewrite Ea, Eb in X. exact X.
Qed.
Lemma says_ival i s x : print_ival i = Val s -> imem x i -> says s x.
Proof.
  destruct i as [|l u]; cbn [imem]; [intros _ []|]. unfold print_ival. cbn [ilb iub]. intros E [H1 H2]. destruct (deq l u) eqn:Ed.
  - destruct (to_rational l) as [p| | |] eqn:El; try discriminate. injection E as <-. destruct (to_rational_exact l p El) as (F & Ep & _). cbn [says]. rewrite Ep.
    apply deq_true in Ed. rewrite <- Ed, (finite_d2e _ F) in H2. rewrite (finite_d2e _ F) in H1. cbn in H1, H2. lra.
  - destruct (to_rational l) as [p| | |] eqn:El; try discriminate. destruct (to_rational u) as [q| | |] eqn:Eu; try discriminate. injection E as <-.
    destruct (to_rational_exact l p El) as (F & Ep & _). destruct (to_rational_exact u q Eu) as (F' & Eq & _). cbn [says]. rewrite Ep, Eq.
    rewrite (finite_d2e _ F) in H1. rewrite (finite_d2e _ F') in H2. cbn in H1, H2. lra.
Qed.
Lemma one_mem i x : i_eqb i i_one = true -> imem x i -> x = 1%R.
Proof.
  destruct i as [|l u]; cbn [i_eqb imem i_one]; [discriminate|]. intros E [H1 H2]. apply andb_true_iff in E. destruct E as [E1 E2]. apply deq_true in E1, E2.
  assert (D1 : d2e (dZ 1) = Fin 1). { destruct (dZ_exact 1 ltac:(lia)) as [F G]. rewrite (finite_d2e _ F), G. reflexivity. } rewrite E1, D1 in H1. rewrite E2, D1 in H2. cbn in H1, H2. lra.
Qed.
Lemma zero_mem i x : i_eqb i i_zero = true -> imem x i -> x = 0%R.
Proof.
  destruct i as [|l u]; cbn [i_eqb imem i_zero]; [discriminate|]. intros E [H1 H2]. apply andb_true_iff in E. destruct E as [E1 E2]. apply deq_true in E1, E2.
  rewrite E1 in H1. rewrite E2 in H2. cbn in H1, H2. lra.
Qed.
(** get-model: every printed dimension contains the value of the variable *)
Lemma says_dim v i x : i_ok i -> imem x i -> says (print_dim v i) x.
Proof.
  intros K H. unfold print_dim. destruct (vty v).
  2-4: idtac. all: try (destruct (i_degenerated i) eqn:E; [destruct i as [|l u]; [destruct H|]; cbn [i_degenerated] in E; cbn [says ilb]|exact H]).
  all: try (destruct K as (K1 & K2 & K3); destruct H as [H1 H2]; pose proof (deq_true _ _ E) as Ee;
    destruct (is_finite l) eqn:F; [rewrite (finite_d2e _ F) in *; rewrite <- Ee in H2; cbn in H1, H2; lra|];
    exfalso; destruct l as [?|[|]| |? ? ? ?]; try discriminate F; cbn in *; try discriminate; try contradiction; rewrite <- Ee in H2; cbn in H2; contradiction).
  destruct (i_eqb i i_one) eqn:E1; [cbn [says]; now apply (one_mem i)|]. destruct (i_eqb i i_zero) eqn:E2; [cbn [says]; now apply (zero_mem i)|exact I].
Qed.
Lemma says_model m rho v s : box_ok m -> in_box rho m -> In (v, s) (print_model m) -> says s (rho v).
Proof.
  intros (K1 & K2 & K3) [_ H] Hi. unfold print_model in Hi. apply in_map_iff in Hi. destruct Hi as ([i w] & E & Hi). cbn [fst snd] in E. apply pair_equal_spec in E. destruct E as [-> <-].
  assert (Hn : nth_error (bvars m) i = Some v).
  { assert (G : forall (l : list var) k j w0, In (j, w0) (combine (seq k (length l)) l) -> nth_error l (j - k)%nat = Some w0 /\ (k <= j)%nat).
    { clear. induction l as [|y l IH]; intros k j w0 X; cbn [length seq combine In] in X; [destruct X|]. destruct X as [X|X].
      - injection X as <- <-. rewrite Nat.sub_diag. auto.
      - apply IH in X. destruct X as [X1 X2]. split; [|lia]. replace (j - k)%nat with (S (j - S k)) by lia. exact X1. }
    destruct (G (bvars m) 0%nat i v Hi) as [X _]. rewrite Nat.sub_0_r in X. exact X. }
  apply says_dim; [|apply (H i v Hn)]. unfold b_get. assert (Hl : (i < length (bvals m))%nat). { assert (i < length (bvars m))%nat by (apply nth_error_Some; congruence). lia. }
  rewrite Forall_forall in K3. apply K3, nth_In, Hl.
Qed.
(** The model printed by check-sat *)
Lemma cast_says l z zl : cast_int l = Some z -> B2R l = IZR zl -> is_finite l = true /\ z = zl.
Proof.
  unfold cast_int. intros E H. destruct (is_finite l) eqn:F; [|discriminate]. destruct (_ && _); [|discriminate]. injection E as <-. split; auto.
  apply eq_IZR. rewrite Btrunc_correct by apply prec64_lt_emax. rewrite round_FIX0, H, Ztrunc_IZR. reflexivity.
Qed.
Lemma cast_finite l z : cast_int l = Some z -> is_finite l = true.
Proof. unfold cast_int. destruct (is_finite l); auto. discriminate. Qed.
Lemma says_show v i x s : (vty v <> CONTINUOUS -> int_ends i) -> (vty v = BOOLEAN -> x = 0%R \/ x = 1%R) -> imem x i -> show_dim v i = Val s -> says s x.
Proof.
  intros HI HB H E. unfold show_dim in E.
  assert (G : vty v <> CONTINUOUS -> match i with IEmpty => Val (ShIval IEmpty) | IV l u => match cast_int l, cast_int u with Some a, Some b => Val (ShInts a b) | _, _ => Ub end end = Val s -> says s x).
  { intros Nc X. destruct i as [|l u]; [destruct H|]. destruct (cast_int l) as [a|] eqn:El; [|discriminate]. destruct (cast_int u) as [b|] eqn:Eu; [|discriminate]. injection X as <-.
    pose proof (cast_finite _ _ El) as Fl. pose proof (cast_finite _ _ Eu) as Fu. destruct (HI Nc) as [Il Iu]. destruct (Il Fl) as [zl Hl]. destruct (Iu Fu) as [zu Hu].
    destruct (cast_says _ _ _ El Hl) as [_ ->]. destruct (cast_says _ _ _ Eu Hu) as [_ ->]. destruct H as [H1 H2].
    rewrite (finite_d2e _ Fl), Hl in H1. rewrite (finite_d2e _ Fu), Hu in H2. cbn in H1, H2. cbn [says]. lra. }
  destruct (vty v).
  - injection E as <-. exact H.
  - apply G; auto. discriminate.
  - apply G; auto. discriminate.
  - destruct i as [|l u]; [destruct H|]. destruct H as [H1 H2]. cbn [ilb iub] in E. destruct (HB eq_refl) as [-> | ->].
    + destruct (deq u dzero); [injection E as <-; reflexivity|]. destruct (deq l (dZ 1)) eqn:El; [|injection E as <-; exact I]. exfalso. apply deq_true in El.
      destruct (dZ_exact 1 ltac:(lia)) as [F1 E1]. rewrite El, (finite_d2e _ F1), E1 in H1. cbn in H1. lra.
    + destruct (deq u dzero) eqn:Eu; [exfalso; apply deq_true in Eu; rewrite Eu in H2; cbn in H2; lra|]. destruct (deq l (dZ 1)); injection E as <-; [reflexivity|exact I].
Qed.
Lemma show_dims_ok l : forall s, show_dims l = Val s -> forall v x, In (v, x) s -> exists i, In (v, i) l /\ show_dim v i = Val x.
Proof.
  induction l as [|[w i] l IH]; intros s E v x Hi; cbn [show_dims] in E; [injection E as <-; destruct Hi|].
  destruct (show_dim w i) as [y| | |] eqn:Ew; try discriminate; destruct (show_dims l) as [r| | |] eqn:Er; try discriminate. injection E as <-.
  destruct Hi as [Hi|Hi]; [injection Hi as <- <-; exists i; split; [left; auto|auto]|]. destruct (IH r eq_refl v x Hi) as (j & Hj & Ej). exists j. split; [right; auto|auto].
Qed.
Lemma says_check m rho v s l : box_ok m -> in_box rho m -> (forall i w, nth_error (bvars m) i = Some w -> vty w <> CONTINUOUS -> int_ends (b_get m i)) ->
  (forall w, In w (bvars m) -> vty w = BOOLEAN -> rho w = 0%R \/ rho w = 1%R) ->
  print_check false true (Some m) = Val (LSatDelta (Some l)) -> In (v, s) l -> says s (rho v).
Proof.
  intros (K1 & K2 & K3) [_ H] HI HB E Hi. cbn [print_check] in E. destruct (show_dims _) as [l'| | |] eqn:Es; try discriminate. injection E as <-.
  destruct (show_dims_ok _ _ Es v s Hi) as (i & Hc & Ed).
  assert (Hn : exists k, nth_error (bvars m) k = Some v /\ b_get m k = i).
  { unfold b_get. clear - Hc. revert Hc. generalize (bvals m). induction (bvars m) as [|w vs IH]; intros is Hc; [destruct Hc|]. destruct is as [|j is]; [destruct Hc|]. destruct Hc as [Hc|Hc].
    - injection Hc as <- <-. exists 0%nat. auto.
    - destruct (IH is Hc) as (k & G1 & G2). exists (S k). auto. }
  destruct Hn as (k & Hk & <-). apply (says_show v (b_get m k) (rho v) s); auto.
  - intros N. apply (HI k v Hk N).
  - intros N. apply HB; auto. apply (nth_error_In _ _ Hk).
Qed.
(** get-value *)
Section Value.
  Variables (M : interp) (D : pdom) (A : iarith).
  Hypothesis HA : ia_ok M D A.
  Hypothesis HM : rc_ok M.
  (** What the value printed for a term says; a Boolean is printed as false also when it is undecided *)
  Definition value_says (m : box) (rho : env) (t : term) (s : shown) : Prop :=
    match t with
    | TmE e => says s (evalE M e rho)
    | TmF f => (s = ShTrue /\ holds M f rho) \/ (s = ShFalse /\ (forall v, f = FVar v -> i_degenerated (b_getv m v) = true -> ~ holds M f rho))
    end.
  Definition term_fine (m : box) (rho : env) (t : term) : Prop :=
    match t with
    | TmE e => (forall v, In v (fvE e) -> In v (bvars m)) /\ finE e /\ defE M D e rho
    | TmF f => forall v, In v (fvF f) -> In v (bvars m)
    end.
  Lemma value_ok m rho t s : box_ok m -> in_box rho m -> term_fine m rho t -> value_of A m t = Val s -> value_says m rho t s.
  Proof.
    intros K H Ft E. destruct t as [e|f]; cbn [value_of value_says term_fine] in *.
    - destruct Ft as (Fv & Fe & Fd). destruct (evalI A e m) as [i|] eqn:Ei; [|discriminate]. apply (says_ival i s _ E). apply (evalI_encl M D A HA HM m rho K H e Fv Fe Fd i Ei).
    - destruct f; try discriminate. pose proof (b_getv_mem rho m v K H (Ft v (or_introl eq_refl))) as Hv. destruct (i_eqb (b_getv m v) i_one) eqn:E1; injection E as <-; [left|right]; (split; [reflexivity|]).
      + cbn [holds]. apply (one_mem _ _ E1 Hv).
      + intros w [= <-] Hd Hh. cbn [holds] in Hh. rewrite Hh in Hv. destruct (b_getv m v) as [|l u]; [destruct Hv|]. cbn [i_degenerated] in Hd. destruct Hv as [H1 H2].
        destruct (deq_not_nan _ _ Hd) as [Nl Nu]. pose proof (deq_true _ _ Hd) as Ed. rewrite <- Ed in H2.
        assert (El : d2e l = Fin 1) by (destruct (d2e l); cbn in H1, H2; try contradiction; f_equal; lra).
        destruct (dZ_exact 1 ltac:(lia)) as [F1 R1]. assert (E2 : d2e (dZ 1) = Fin 1) by (rewrite (finite_d2e _ F1), R1; reflexivity).
        assert (N1 : is_nan (dZ 1) = false) by (destruct (dZ 1); auto; discriminate F1).
        assert (Q1 : deq l (dZ 1) = true) by (apply deq_spec; auto; congruence). assert (Q2 : deq u (dZ 1) = true) by (apply deq_spec; auto; congruence).
        cbn [i_eqb i_one] in E1. rewrite Q1, Q2 in E1. discriminate.
  Qed.
  Lemma values_ok m rho ts : box_ok m -> in_box rho m -> Forall (term_fine m rho) ts -> forall l, values_of A m ts = Val l -> map fst l = ts /\ Forall (fun p => value_says m rho (fst p) (snd p)) l.
  Proof.
    intros K H. induction 1 as [|t ts Ht HT IH]; intros l E; cbn [values_of] in E; [injection E as <-; split; [reflexivity|constructor]|].
    destruct (value_of A m t) as [x| | |] eqn:E1; try discriminate; destruct (values_of A m ts) as [r| | |] eqn:E2; try discriminate. injection E as <-.
    destruct (IH r eq_refl) as [G1 G2]. split; [cbn; congruence|]. constructor; auto. cbn [fst snd]. apply (value_ok m rho t x K H Ht E1).
  Qed.
End Value.
