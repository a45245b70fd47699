(** * The context inside a quantified constraint, along any sequence of queries (behind C33)

    The domains of that context are overwritten by every query, widened as well as narrowed, so that it poses no fixed problem.  What remains
    true is its shape; [cinv] of a problem without solutions (False asserted) says just that. *)
From Coq Require Import ZArith Reals Lra Lia List Bool Arith.
From Flocq Require Import IEEE754.BinarySingleNaN.
From Verif Require Import Dbl DblProofs Syntax Sem SemProofs FormulaCons SpecForm Nnf PredAbs PredAbsProofs
  Scoped SpecScoped Interval IntervalProofs MathConv MathConvProofs IEval IEvalProofs Contr ContrProofs IbexConv IbexConvProofs Icp IcpProofs IcpTop IcpPar IcpParProofs IcpParTop Filter FilterProofs Theory ExplainProofs TheoryProofs TheoryTop TheorySat
  IteElim SpecIte Regular Wff WffProofs Sat Context CtxStruct SatSem CdclProofs SpecCtx CtxBox CtxSem CtxRun CtxInv CtxTop SpecModel CtxModel CtxSat CtxDom CtxModelTop ContrFull TheoryFull ExprAlg DeltaStr Forall DrProofs.
Import ListNotations.

(** The theory solver does not empty single components. *)
Definition T_full (fold : expr -> expr -> option dbl) (okA : formula -> Prop) (okV : var -> Prop) (T : nat -> box -> list formula -> option tres) : Prop :=
  forall t b fs B, box_ok b -> int_range b -> (forall v, In v (bvars b) -> okV v) -> (forall f, In f fs -> tlit fold False okA b f) -> no_ints b -> b_full b -> T t b fs = Some (TSat B) ->
    b_full B.

Section Solver.
  Variables (M : interp) (D : pdom) (fold : expr -> expr -> option dbl).
  Variables (esub : expr -> expr -> expr) (eneg : expr -> expr) (m : nat) (A : iarith) (L : ibex) (fa : formula -> box -> option (list ival)) (term : list ival -> list ival -> bool) (pn : nat).
  Variables (mid : dbl -> dbl -> dbl) (precision : dbl) (wl : bool).
  Hypothesis RC : rc_ok M.
  Hypothesis Hm : mid_ok mid.
  Hypothesis HL : ibex_ok M D L.
  Hypothesis HN : eneg_faithful M D eneg.
  Hypothesis HS : sqrt_ok M D.
  Hypothesis HA : ia_ok M D A.
  Hypothesis HD : esub_ok M D esub.
  Let Orc := ibex_oracles L esub eneg m fa.
  Let ev := rel_eval A esub.
  Let okV (v : var) : Prop := wl = true -> is_int_type (vty v) = false.
  Let okA (_ : formula) : Prop := True.
  Let tlh := tlit_hyps M D fold esub eneg m A L fa RC HL HN HS HA HD.
  Lemma T_full_seq (k : nat -> nat) (lf : nat -> bool) : T_full fold okA okV (solver_seq esub eneg m Orc term pn ev mid precision wl k lf).
  Proof.
    intros t b fs B Kb Rg _ Hl NI Fb E. unfold solver_seq in E.
    exact (theory_full M D Orc esub eneg m fs b RC (fun f v Hf => proj1 (tlh b f (Hl f Hf)) v) (fun f Hf => proj1 (proj2 (tlh b f (Hl f Hf))))
      (fun f c Hf => proj1 (proj2 (proj2 (tlh b f (Hl f Hf)))) c) ev wl _ B Kb Fb (seq_full M D Orc term pn fs b ev mid precision Hm Rg NI (k t) (lf t)) E).
  Qed.
  Lemma T_full_par (lf : nat -> bool) (jobs : nat) (sched : nat -> list nat) : T_full fold okA okV (solver_par esub eneg m Orc term pn ev mid precision wl lf jobs sched).
  Proof.
    intros t b fs B Kb Rg _ Hl NI Fb E. unfold solver_par in E.
    exact (theory_full M D Orc esub eneg m fs b RC (fun f v Hf => proj1 (tlh b f (Hl f Hf)) v) (fun f Hf => proj1 (proj2 (tlh b f (Hl f Hf))))
      (fun f c Hf => proj1 (proj2 (proj2 (tlh b f (Hl f Hf)))) c) ev wl _ B Kb Fb (par_full M D Orc term pn fs b ev mid precision Hm Rg NI (lf t) jobs (sched t)) E).
  Qed.
End Solver.

(** ** Setting a domain, or nothing, of a context whose problem has no solution *)
Lemma no_solution M D p rho : In FFalse (p_asserts p) -> ~ solution M D p rho.
Proof. intros H (_ & _ & S). exact (proj2 (S _ H)). Qed.
Lemma linv_kill M D fold n False g lv p : linv M D fold n False g lv p -> linv M D fold n False g lv (add_assert FFalse p).
Proof.
  intros [B1 B2 B3 B4 B5 B6 S1 S2 S3 S4 S5 P1 Sm]. split; auto.
  - discriminate || (intros E; unfold add_assert in E; cbn [p_asserts] in E; destruct (p_asserts p); discriminate).
  - intros rho0 Sol. exfalso. revert Sol. apply no_solution. unfold add_assert. cbn [p_asserts]. apply in_or_app; right; left; reflexivity || left; reflexivity.
Qed.
Lemma linv_dead M D fold n False g lv p v i : In FFalse (p_asserts p) -> declared p v -> vty v = CONTINUOUS -> i_ok i -> linv M D fold n False g lv p ->
  linv M D fold n False g (set_box (b_setv (v_box lv) v i) lv) p.
Proof.
  intros Df Dv Cv Ki [B1 B2 B3 B4 B5 B6 S1 S2 S3 S4 S5 P1 Sm]. set (b := v_box lv) in *. assert (Iv : In v (bvars b)) by (apply B5; exact Dv).
  split; cbn [set_box v_box v_stack v_sat]; auto.
  - apply setv_ok; auto.
  - apply setv_range; auto. unfold is_int_type. rewrite Cv. discriminate.
  - apply phantom_nonnil. cbn [b_setv b_set bvars]. intros E. rewrite E in Iv. contradiction.
  - intros E. rewrite E in Df. contradiction.
  - intros rho0 Sol. exfalso. exact (no_solution M D p rho0 Df Sol).
Qed.

Lemma filter_prefix (mv vs ex : list var) : NoDup (vs ++ ex) -> (forall v, In v mv <-> In v vs) -> filter (fun v => mem_var v mv) (vs ++ ex) = vs.
Proof.
  intros Nd H. rewrite filter_app.
  assert (A1 : filter (fun v => mem_var v mv) vs = vs).
  { assert (X : forall w, In w vs -> mem_var w mv = true) by (intros w Hw; apply mem_var_In, H, Hw). clear Nd H. induction vs as [|w l IH]; [reflexivity|]. cbn [filter]. rewrite (X w) by (left; reflexivity). f_equal. apply IH. intros u Hu. apply X. right. exact Hu. }
  assert (A2 : filter (fun v => mem_var v mv) ex = []).
  { assert (X : forall w, In w ex -> mem_var w mv = false).
    { intros w Hw. destruct (mem_var w mv) eqn:E; [|reflexivity]. apply mem_var_In, H in E. exfalso. clear H A1. induction vs as [|u l IH]; [destruct E|]. cbn [app] in Nd. inversion Nd; subst. destruct E as [->|E]; [apply H1, in_or_app; right; exact Hw|exact (IH H2 E)]. }
    clear Nd H A1. induction ex as [|w l IH]; [reflexivity|]. cbn [filter]. rewrite (X w) by (left; reflexivity). apply IH. intros u Hu. apply X. right. exact Hu. }
  rewrite A1, A2. apply app_nil_r.
Qed.
Lemma full_of_getv b : box_ok b -> (bvars b = [] -> b_empty b = false) -> (forall v, In v (bvars b) -> i_empty (b_getv b v) = false) -> b_full b.
Proof.
  intros K H0 H. apply Forall_forall. intros x Hx. apply In_nth with (d := IEmpty) in Hx. destruct Hx as (i & Li & <-).
  destruct (nth_error (bvars b) i) as [v|] eqn:E.
  - pose proof (nth_error_In _ _ E) as Hv. specialize (H v Hv). unfold b_getv, b_get in H. destruct K as (N1 & N2 & N3).
    assert (b_idx0 b v = i) by (rewrite NoDup_nth_error in N1; apply N1; [pose proof (idx0_nth b v Hv) as Z; apply nth_error_Some; rewrite Z; discriminate|rewrite E; exact (idx0_nth b v Hv)]).
    congruence.
  - apply nth_error_None in E. destruct K as (_ & Lb & _). assert (Z : bvars b = []) by (destruct (bvars b); [reflexivity|cbn [length] in *; lia]). specialize (H0 Z).
    assert (i = 0) as -> by (rewrite Z in *; cbn [length] in *; lia). exact H0.
Qed.
Lemma getv_full b v : box_ok b -> b_full b -> In v (bvars b) -> i_empty (b_getv b v) = false.
Proof. intros K F Hv. exact (full_get b _ v K F (idx0_nth b v Hv)). Qed.

Section Inv.
  Variables (M : interp) (D : pdom) (fold : expr -> expr -> option dbl) (K : eops) (pico : pico_t) (T : nat -> box -> list formula -> option tres).
  Variables (mid : dbl -> dbl -> dbl) (precision : dbl) (n : nat) (okA : formula -> Prop) (okV : var -> Prop).
  Hypothesis OKA : forall f, okA f.
  Hypothesis OKV_CONT : forall v, vty v = CONTINUOUS -> okV v.
  Hypothesis RC : rc_ok M.
  Hypothesis P_ok : pico_ok pico.
  Hypothesis T_ok : T_sound M D fold T False okA okV.
  Hypothesis T_bx : T_box fold False okA okV T.
  Hypothesis T_fu : T_full fold okA okV T.
  Hypothesis Hm : mid_ok mid.
  Hypothesis Fp : is_finite precision = true.
  Hypothesis Pp : (0 < B2R precision)%R.
  Notation step := (cx_step fold K pico T mid precision). Notation run := (cx_run fold K pico T mid precision).
  Notation cinv := (cinv M D fold n False okV).

  Definition inner (vs : list var) (c : ctx) : Prop := vs <> [] /\ exists g b p ex, cinv g c b [] p [] /\ In FFalse (p_asserts p) /\ bvars b = vs ++ ex /\ b_full b /\ marked c vs /\
    (forall v, In v vs -> declared p v) /\ (forall v, In v (bvars b) -> vty v = CONTINUOUS).

  Lemma inner_set vs c v i c' a : inner vs c -> In v vs -> i_ok i -> i_empty i = false -> step (OSetInterval v (ilb i) (iub i)) c = Some (c', a) -> inner vs c' /\ a = [].
  Proof.
    intros (Ne & g & b & p & ex & C & Df & Vb & Fb & Mk & Dc & Cn) Hv Ki Ei E. pose proof (step_mvars fold K pico T mid precision _ _ _ _ vs E Mk) as Mk'. cbn [mark] in Mk'.
    cbn [cx_step] in E. destruct (cx_set_interval v (ilb i) (iub i) c) as [c1|] eqn:E1; cbn [IEval.bind] in E; [|discriminate]. injection E as <- <-. split; [|reflexivity].
    destruct (set_interval_sim v _ _ c b [] c1 (ci_sim _ _ _ _ _ _ _ _ _ _ _ _ C) E1) as (S1 & S2 & S3 & S4). rewrite (mk_ival_ends i Ki) in S1.
    assert (Iv : In v (bvars b)) by (rewrite Vb; apply in_or_app; left; exact Hv).
    split; [exact Ne|]. exists g, (b_setv b v i), p, ex. split.
    { apply (cinv_box M D fold n False okV g c b [] p []); auto.
      - apply (linv_dead M D fold n False g (lev c b) p v i Df (Dc v Hv) (Cn v Iv) Ki). exact (ci_lev _ _ _ _ _ _ _ _ _ _ _ _ C).
      - intros w Hw. exact (ci_dcl _ _ _ _ _ _ _ _ _ _ _ _ C p w (or_introl eq_refl) Hw). }
    split; [exact Df|]. split; [exact Vb|]. split; [apply b_set_full; auto|]. split; [exact Mk'|]. split; [exact Dc|exact Cn].
  Qed.

  Lemma inner_check vs c k c' a : inner vs c -> step (OCheck k) c = Some (c', a) -> inner vs c' /\ exists r, a = [r] /\ forall ce, r = Some ce -> bvars ce = vs /\ box_ok ce /\ b_full ce.
  Proof.
    intros (Ne & g & b & p & ex & C & Df & Vb & Fb & Mk & Dc & Cn) E. pose proof (step_mvars fold K pico T mid precision _ _ _ _ vs E Mk) as Mk'. cbn [mark] in Mk'.
    cbn [cx_step] in E. destruct (cx_check fold pico T mid precision k c) as [[r c1]|] eqn:E1; cbn [IEval.bind fst snd] in E; [|discriminate].
    assert (Ec : c1 = c' /\ a = [r]) by (split; congruence). destruct Ec as [-> ->]. clear E.
    pose proof (proj1 (check_step M D fold pico T mid precision n False okA okV OKV_CONT P_ok T_ok g c b [] p [] k r c' C (fun v f _ => OKA f) E1)) as C'. split.
    { split; [exact Ne|]. exists g, b, p, ex. auto 10. }
    exists r. split; [reflexivity|]. intros ce ->.
    destruct (model_dims_full M D fold pico T mid precision n False okA okV OKV_CONT P_ok T_ok T_bx Hm Fp Pp g c b [] p [] k ce c' C (fun v f _ => OKA f) E1)
      as (B & B1 & Hb & _ & Nb & Kb & VB & Em & K1 & V1 & Db & Td).
    pose proof (ci_lev _ _ _ _ _ _ _ _ _ _ _ _ C) as Lv. pose proof (li_box _ _ _ _ _ _ _ _ Lv) as Kb0. cbn [lev v_box] in Kb0.
    assert (NI : forall b1, bvars b1 = bvars b -> no_ints b1).
    { intros b1 V w Hw. rewrite V in Hw. unfold is_int_type. rewrite (Cn w Hw). reflexivity. }
    assert (FB : b_full B).
    { destruct Hb as [[_ ->]|(al & _ & b1 & A2 & _ & A4)]; [exact Fb|].
      assert (F1 : b_full b1).
      { apply full_of_getv; [apply A2| |].
        - intros Z. rewrite (bd_nil _ _ A2) by (rewrite <- Z; symmetry; apply A2). apply full_nonempty; auto.
        - intros w Hw. rewrite (bd_vars _ _ A2) in Hw. rewrite (bd_same _ _ A2 w Hw) by (rewrite (Cn w Hw); discriminate). apply getv_full; auto. }
      destruct A4 as [[_ ->]|(t & fs & Ea & _ & Hl)]; [exact F1|].
      apply (T_fu t b1 fs B (bd_ok _ _ A2) (bd_rng _ _ A2)); auto; [|apply NI, A2]. intros w Hw. rewrite (bd_vars _ _ A2) in Hw. apply OKV_CONT, Cn, Hw. }
    assert (G1 : forall v, In v (bvars b) -> i_empty (b_getv B1 v) = false).
    { intros w Hw. destruct (Td w Hw) as [_ Y]. destruct Y as [[x Hx] _]; [apply getv_full; auto; rewrite VB; exact Hw|]. exact (imem_nonempty _ _ Hx). }
    assert (Nd : NoDup (vs ++ ex)) by (rewrite <- Vb; apply Kb0).
    destruct Mk as [Nm Mk]. assert (Lm : length (cx_mvars c) = length vs).
    { apply Nat.le_antisymm; apply NoDup_incl_length; auto; [intros x; apply Mk|clear -Nd; induction vs as [|u l IH]; [constructor|cbn [app] in Nd; inversion Nd; subst; constructor; [intros X; apply H1, in_or_app; left; exact X|exact (IH H2)]]|intros x; apply Mk]. }
    destruct (extract_spec (cx_mvars c) B1 K1) as (X1 & X2 & X3 & X4). rewrite <- Em in X1, X2, X3, X4.
    assert (Vc : bvars ce = vs).
    { rewrite Em. unfold extract_model. destruct (Nat.eqb_spec (length (cx_mvars c)) (b_size B1)) as [Es|Es].
      - unfold b_size in Es. rewrite V1, Vb, app_length in *. destruct ex; [rewrite app_nil_r in *; exact eq_refl|cbn [length] in Es; lia].
      - rewrite V1, Vb, filter_prefix by auto.
        destruct (extract_fold B1 vs K1) with (m := box0) as (_ & Y & _); [intros x Hx; rewrite V1, Vb; apply in_or_app; left; exact Hx|split; [constructor|split; [reflexivity|repeat constructor]]| |intros x []|exact Y].
        cbn [box0 bvars app]. clear -Nd. induction vs as [|u l IH]; [constructor|cbn [app] in Nd; inversion Nd; subst; constructor; [intros X; apply H1, in_or_app; left; exact X|exact (IH H2)]]. }
    split; [exact Vc|]. split; [exact X1|]. apply full_of_getv; [exact X1| |].
    - intros Z. congruence.
    - intros w Hw. destruct (X3 w Hw) as [Y1 Y2]. rewrite Y2. apply G1. rewrite V1 in Y1. exact Y1.
  Qed.

  Lemma sets_run vs b l : (forall v, In v l -> In v vs /\ i_empty (b_getv b v) = false) -> box_ok b -> forall c c' a, inner vs c ->
    run (map (fun v => OSetInterval v (ilb (b_getv b v)) (iub (b_getv b v))) l) c = Some (c', a) -> inner vs c' /\ a = [].
  Proof.
    intros Hl Kb. induction l as [|v l IH]; intros c c' a I E; cbn [map cx_run] in E.
    - assert (X : c = c' /\ a = []) by (split; congruence). destruct X as [<- ->]. auto.
    - destruct (step (OSetInterval v (ilb (b_getv b v)) (iub (b_getv b v))) c) as [[c1 a1]|] eqn:E1; cbn [IEval.bind fst snd] in E; [|discriminate].
      destruct (Hl v (or_introl eq_refl)) as [Hv Ev].
      destruct (inner_set vs c v _ c1 a1 I Hv (b_getv_ok b v Kb) Ev E1) as [I1 ->].
      destruct (cx_run fold K pico T mid precision (map (fun v => OSetInterval v (ilb (b_getv b v)) (iub (b_getv b v))) l) c1) as [[c2 a2]|] eqn:E2; cbn [IEval.bind fst snd app] in E; [|discriminate].
      destruct (IH (fun w Hw => Hl w (or_intror Hw)) c1 c2 a2 I1 E2) as [I2 ->]. assert (X : c2 = c' /\ a = []) by (split; congruence). destruct X as [<- ->]. auto.
  Qed.
  Lemma query_run vs b fuel c c' a : inner vs c -> box_ok b -> b_full b -> incl (bvars b) vs -> run (inner_query b fuel) c = Some (c', a) ->
    inner vs c' /\ exists r, a = [r] /\ forall ce, r = Some ce -> bvars ce = vs /\ box_ok ce /\ b_full ce.
  Proof.
    intros I Kb Fb Hi E. unfold inner_query in E. rewrite cx_run_app in E.
    destruct (run (inner_sets b) c) as [[c1 a1]|] eqn:E1; [|discriminate].
    destruct (sets_run vs b (bvars b) (fun v Hv => conj (Hi v Hv) (getv_full b v Kb Fb Hv)) Kb c c1 a1 I E1) as [I1 ->].
    destruct (run [OCheck fuel] c1) as [[c2 a2]|] eqn:E2; [|discriminate]. cbn [app] in E. assert (X : c2 = c' /\ a = a2) by (split; congruence). destruct X as [-> ->]. clear E.
    cbn [cx_run] in E2. destruct (step (OCheck fuel) c1) as [[c3 a3]|] eqn:E3; cbn [IEval.bind fst snd] in E2; [|discriminate].
    assert (X : c3 = c' /\ a2 = a3 ++ []) by (split; congruence). destruct X as [-> ->]. rewrite app_nil_r. exact (inner_check vs c1 fuel c' a3 I1 E3).
  Qed.

  (** ** The constructor establishes the invariant. *)
  Lemma add_news_app vs : forall b, exists ex, bvars (fold_left b_add_new vs b) = bvars b ++ ex.
  Proof.
    induction vs as [|v vs IH]; intros b; cbn [fold_left]; [exists []; symmetry; apply app_nil_r|]. destruct (IH (b_add_new b v)) as [ex E]. rewrite E.
    unfold b_add_new. destruct (b_has b v); [exists ex; reflexivity|]. cbn [b_add bvars]. rewrite <- app_assoc. eexists. reflexivity.
  Qed.
  Lemma assert_bvars f c b saved c' b' : csim c b saved -> box_ok b -> (forall v, In v (fvF f) -> In v (bvars b)) -> finF f ->
    cx_assert fold K f c = Some c' -> csim c' b' saved -> exists ex, bvars b' = bvars b ++ ex.
  Proof.
    intros H Kb Fv Fin E H'. pose proof (csim_box _ _ _ H') as Eb'. unfold cx_assert in E. rewrite (csim_box _ _ _ H) in E.
    assert (Nil : forall b1, bvars b1 = bvars b -> exists ex, bvars b1 = bvars b ++ ex) by (intros b1 X; exists []; rewrite app_nil_r; exact X).
    assert (Same : c' = c -> exists ex, bvars b' = bvars b ++ ex).
    { intros ->. rewrite (csim_box _ _ _ H) in Eb'. assert (X : b = b') by congruence. subst b'. apply Nil. reflexivity. }
    destruct (is_true f); [apply Same; congruence|]. cbn [IEval.bind] in E. destruct (b_empty b); [apply Same; congruence|].
    assert (Set_ : forall b1, cx_set_box b1 c = Some c' -> b' = b1).
    { intros b1 E1. destruct (csim_set b1 c b saved H) as (c1 & F1 & F2 & _). rewrite F1 in E1. assert (X : c1 = c') by congruence. subst c1. rewrite (csim_box _ _ _ F2) in Eb'. congruence. }
    destruct (is_false f); [rewrite (Set_ _ E); apply Nil; reflexivity|].
    destruct (filter_assertion f b) as [[r b1]|] eqn:Ef; cbn [IEval.bind fst snd] in E; [|discriminate].
    destruct (filter_sub M f b r b1 RC Kb Fv Fin Ef) as [Kb1 Sb1].
    destruct r; try (rewrite (Set_ _ E); apply Nil, Sb1).
    destruct (ite_process fold K f (cx_next c)) as [g s].
    destruct (csim_set (fold_left b_add_new (it_vars s) b1) c b saved H) as (c1 & E1 & H1 & _). rewrite E1 in E. cbn [IEval.bind] in E.
    destruct (sat_add_formula fold g (it_next s) (cx_sat c1)) as [[t nx]|] eqn:Ea; cbn [IEval.bind] in E; [|discriminate].
    assert (X : b' = fold_left b_add_new (it_vars s) b1).
    { assert (X1 : cx_box c' = cx_box c1) by (injection E as <-; reflexivity). rewrite X1, (csim_box _ _ _ H1) in Eb'. congruence. }
    rewrite X, <- (proj1 Sb1). apply add_news_app.
  Qed.

  Notation adm := (admissible M D fold K n).
  Lemma declared_declare_iff v p w : declared (declare v p) w <-> declared p w \/ w = v.
  Proof.
    split; [apply declared_declare|]. unfold declared, declare. destruct (mem_var v (map fst (p_doms p))) eqn:E.
    - apply mem_var_In in E. intros [H| ->]; [exact H|exact E].
    - cbn [p_doms]. rewrite map_app, in_app_iff. cbn [map fst In]. intros [H| ->]; auto.
  Qed.
  Lemma declares_inv l rest : forall g c b p ms c' a, cinv g c b [] p [] -> marked c ms -> adm (map (fun v => ODeclare v true) l ++ rest) (g_news g) (p, []) ->
    (forall v, In v l -> vty v = CONTINUOUS) -> NoDup (bvars b ++ l) -> run (map (fun v => ODeclare v true) l) c = Some (c', a) ->
    a = [] /\ exists g' b' p', cinv g' c' b' [] p' [] /\ adm rest (g_news g') (p', []) /\ marked c' (rev l ++ ms) /\ bvars b' = bvars b ++ l /\ (forall v, declared p' v <-> declared p v \/ In v l).
  Proof.
    induction l as [|v l IH]; intros g c b p ms c' a C Mk Ad Cn Nd E; cbn [map cx_run app rev] in *.
    - assert (X : c = c' /\ a = []) by (split; congruence). destruct X as [<- ->]. split; [reflexivity|]. exists g, b, p. rewrite app_nil_r.
      split; [exact C|]. split; [exact Ad|]. split; [exact Mk|]. split; [reflexivity|]. intros v. cbn [In]. tauto.
    - cbn [admissible fst admissible_q] in Ad. destruct Ad as [Ok Ad].
      destruct (step (ODeclare v true) c) as [[c1 a1]|] eqn:E1; cbn [IEval.bind fst snd] in E; [|discriminate].
      destruct (step_inv M D fold K pico T mid precision n False okA okV OKV_CONT RC P_ok T_ok g c b [] p [] (ODeclare v true) c1 a1 C Ok (OKV_CONT v (Cn v (or_introl eq_refl))) (fun w f _ => OKA f) E1)
        as [(g1 & b1 & C1 & N1 & _ & _) ->].
      cbn [saved_step p_step fst snd news_step] in *. rewrite <- N1 in Ad.
      pose proof (step_mvars fold K pico T mid precision _ _ _ _ ms E1 Mk) as Mk1. cbn [mark] in Mk1.
      assert (V1 : bvars b1 = bvars b ++ [v]).
      { cbn [cx_step] in E1. destruct (cx_declare v true c) as [c2|] eqn:E2; cbn [IEval.bind] in E1; [|discriminate]. assert (c2 = c1) by congruence. subst c2.
        destruct (declare_sim v true c b [] c1 (ci_sim _ _ _ _ _ _ _ _ _ _ _ _ C) E2) as [S1 _]. pose proof (csim_box _ _ _ S1) as Y1. pose proof (csim_box _ _ _ (ci_sim _ _ _ _ _ _ _ _ _ _ _ _ C1)) as Y2.
        assert (X : b1 = b_add_new b v) by congruence. rewrite X. unfold b_add_new. destruct (b_has b v) eqn:Hh; [|reflexivity]. apply has_In in Hh.
        exfalso. apply NoDup_remove_2 in Nd. apply Nd, in_or_app. left. exact Hh. }
      destruct (run (map (fun v => ODeclare v true) l) c1) as [[c2 a2]|] eqn:E2; cbn [IEval.bind fst snd app] in E; [|discriminate].
      assert (X : c2 = c' /\ a2 = a) by (split; congruence). destruct X as [-> ->].
      destruct (IH g1 c1 b1 (declare v p) (v :: ms) c' a C1 Mk1 Ad (fun w Hw => Cn w (or_intror Hw)) ltac:(rewrite V1, <- app_assoc; exact Nd) E2) as (-> & g' & b' & p' & C' & Ad' & Mk' & V' & D').
      split; [reflexivity|]. exists g', b', p'. split; [exact C'|]. split; [exact Ad'|]. split; [rewrite <- app_assoc; exact Mk'|]. split; [rewrite V', V1, <- app_assoc; reflexivity|].
      intros w. rewrite D', declared_declare_iff. cbn [In]. split; [intros [[H| ->]|H]; auto|intros [H|[->|H]]; auto].
  Qed.
  Lemma asserts_inv l : forall g c b p ms c' a, cinv g c b [] p [] -> marked c ms -> adm (map OAssert l) (g_news g) (p, []) -> run (map OAssert l) c = Some (c', a) ->
    a = [] /\ exists g' b' p' ex, cinv g' c' b' [] p' [] /\ marked c' ms /\ bvars b' = bvars b ++ ex /\ (forall v, declared p' v <-> declared p v).
  Proof.
    induction l as [|f l IH]; intros g c b p ms c' a C Mk Ad E; cbn [map cx_run] in *.
    - assert (X : c = c' /\ a = []) by (split; congruence). destruct X as [<- ->]. split; [reflexivity|]. exists g, b, p, []. rewrite app_nil_r.
      split; [exact C|]. split; [exact Mk|]. split; [reflexivity|]. intros v. apply iff_refl.
    - cbn [admissible fst admissible_q] in Ad. destruct Ad as [Ok Ad].
      destruct (step (OAssert f) c) as [[c1 a1]|] eqn:E1; cbn [IEval.bind fst snd] in E; [|discriminate].
      destruct (step_inv M D fold K pico T mid precision n False okA okV OKV_CONT RC P_ok T_ok g c b [] p [] (OAssert f) c1 a1 C Ok Logic.I (fun w f _ => OKA f) E1)
        as [(g1 & b1 & C1 & N1 & _ & _) ->].
      cbn [saved_step p_step fst snd news_step] in *. rewrite <- N1 in Ad.
      pose proof (step_mvars fold K pico T mid precision _ _ _ _ ms E1 Mk) as Mk1. cbn [mark] in Mk1.
      assert (V1 : exists ex, bvars b1 = bvars b ++ ex).
      { cbn [cx_step] in E1. destruct (cx_assert fold K f c) as [c2|] eqn:E2; cbn [IEval.bind] in E1; [|discriminate]. assert (c2 = c1) by congruence. subst c2.
        pose proof (ci_lev _ _ _ _ _ _ _ _ _ _ _ _ C) as Lv. pose proof (li_box _ _ _ _ _ _ _ _ Lv) as Kb0. cbn [lev v_box] in Kb0. cbn [op_ok op_ok_q] in Ok. destruct Ok as [Wf _].
        apply (assert_bvars f c b [] c1 b1 (ci_sim _ _ _ _ _ _ _ _ _ _ _ _ C) Kb0); auto; [|exact (wfF_fin _ _ _ f Wf)|exact (ci_sim _ _ _ _ _ _ _ _ _ _ _ _ C1)].
        intros w Hw. destruct (proj2 (wf_fv _ _ _) f Wf w Hw) as [X|X]; apply (li_dcl _ _ _ _ _ _ _ _ Lv w), X. }
      destruct V1 as [ex1 V1].
      destruct (run (map OAssert l) c1) as [[c2 a2]|] eqn:E2; cbn [IEval.bind fst snd app] in E; [|discriminate].
      assert (X : c2 = c' /\ a2 = a) by (split; congruence). destruct X as [-> ->].
      destruct (IH g1 c1 b1 (add_assert f p) ms c' a C1 Mk1 Ad E2) as (-> & g' & b' & p' & ex & C' & Mk' & V' & D').
      split; [reflexivity|]. exists g', b', p', (ex1 ++ ex). split; [exact C'|]. split; [exact Mk'|]. split; [rewrite V', V1, <- app_assoc; reflexivity|]. intros w. rewrite D'. apply iff_refl.
  Qed.
  Lemma setup_inner vs gs c b : vs <> [] -> NoDup vs -> (forall v, In v vs -> vty v = CONTINUOUS) ->
    run (map (fun v => ODeclare v true) vs ++ map OAssert gs) (cx_init n) = Some (c, []) -> adm (map (fun v => ODeclare v true) vs ++ map OAssert gs) [] (p_empty, []) ->
    cx_box c = Some b -> b_full b -> inner vs c.
  Proof.
    intros Ne Nd Cn E Ad Eb Fb. rewrite cx_run_app in E. destruct (run (map (fun v => ODeclare v true) vs) (cx_init n)) as [[c1 a1]|] eqn:E1; [|discriminate].
    destruct (declares_inv vs _ _ _ box0 _ [] c1 a1 (init_inv M D fold n False okV) ltac:(split; [constructor|intros v; apply iff_refl]) Ad Cn Nd E1) as (-> & g1 & b1 & p1 & C1 & Ad1 & Mk1 & V1 & D1).
    destruct (run (map OAssert gs) c1) as [[c2 a2]|] eqn:E2; [|discriminate]. assert (X : c2 = c /\ a2 = []) by (split; cbn [app] in E; congruence). destruct X as [-> ->].
    destruct (asserts_inv gs g1 c1 b1 p1 _ c [] C1 Mk1 Ad1 E2) as (_ & g & b' & p & ex & C & Mk & V & Dc).
    assert (b' = b) by (pose proof (csim_box _ _ _ (ci_sim _ _ _ _ _ _ _ _ _ _ _ _ C)); congruence). subst b'. cbn [box0 bvars app] in V1.
    split; [exact Ne|]. exists g, b, (add_assert FFalse p), ex. split.
    { apply (cinv_box M D fold n False okV g c b [] p [] c b); auto; [apply C|apply linv_kill; exact (ci_lev _ _ _ _ _ _ _ _ _ _ _ _ C)|].
      intros w Hw. exact (ci_dcl _ _ _ _ _ _ _ _ _ _ _ _ C p w (or_introl eq_refl) Hw). }
    split; [cbn [add_assert p_asserts]; apply in_or_app; right; left; reflexivity|]. split; [rewrite V, V1; reflexivity|]. split; [exact Fb|].
    split; [rewrite app_nil_r in Mk; destruct Mk as [X Y]; split; [exact X|]; intros v; rewrite Y, <- in_rev; apply iff_refl|].
    assert (Dv : forall v, declared p v <-> In v vs) by (intros v; rewrite Dc, D1; split; [intros [[]|H]; exact H|auto]).
    split; [intros v Hv; apply Dv; exact Hv|]. intros v Hv.
    destruct (li_bv _ _ _ _ _ _ _ _ (ci_lev _ _ _ _ _ _ _ _ _ _ _ _ C) v Hv) as [H|[_ H]]; [apply Cn, Dv, H|exact H].
  Qed.
End Inv.
