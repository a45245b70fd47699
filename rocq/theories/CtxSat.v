(** * What a delta-sat answer of the context comes from (behind C02, C29, C30) *)
From Coq Require Import ZArith Reals Lra Lia List Bool Arith Classical.
From Flocq Require Import IEEE754.BinarySingleNaN.
From Verif Require Import Dbl DblProofs Syntax Sem SemProofs FormulaCons FormulaConsProofs SpecForm Nnf NnfProofs PredAbs PredAbsProofs Tseitin TseitinProofs ConsUnfolded
  Scoped SpecScoped ScopedProofs Interval IntervalProofs MathConv MathConvProofs IEval IEvalProofs Contr Icp IcpTop Filter FilterProofs Theory TheoryTop IteElim SpecIte IteElimProofs
  Regular RegularProofs Wff WffProofs Sat Context CtxStruct SatSem CdclProofs SpecCtx CtxBox CtxSem CtxRun CtxInv SpecModel CtxModel.
Import ListNotations.

(** [b'] is [b] with some Boolean dimensions set to 0 or 1. *)
Record bool_dims (b b' : box) : Prop := {
  bd_vars : bvars b' = bvars b;
  bd_ok : box_ok b';
  bd_rng : int_range b';
  bd_same : forall v, In v (bvars b) -> vty v <> BOOLEAN -> b_getv b' v = b_getv b v;
  bd_bool : forall v, In v (bvars b) -> vty v = BOOLEAN -> b_getv b' v = b_getv b v \/ exists x : bool, b_getv b' v = i_point (if x then dZ 1 else dzero);
  bd_nil : bvars b = [] -> b' = b }.
Lemma bd_refl b : box_ok b -> int_range b -> bool_dims b b.
Proof. intros K R. split; auto. Qed.
Lemma getv_setv_eq b v i : box_ok b -> In v (bvars b) -> b_getv (b_setv b v i) v = i.
Proof. intros K H. unfold b_getv, b_setv. change (b_idx0 (b_set b (b_idx0 b v) i) v) with (b_idx0 b v). apply b_get_set_eq. exact (box_ok_len b _ v K (idx0_nth b v H)). Qed.
Lemma getv_setv_ne b v w i : box_ok b -> In v (bvars b) -> In w (bvars b) -> v <> w -> b_getv (b_setv b v i) w = b_getv b w.
Proof.
  intros K H H' N. unfold b_getv, b_setv. change (b_idx0 (b_set b (b_idx0 b v) i) w) with (b_idx0 b w). apply b_get_set_ne. intros E. apply N.
  pose proof (idx0_nth b v H) as X. pose proof (idx0_nth b w H') as Y. rewrite E in X. congruence.
Qed.
Lemma bd_set b b' v (x : bool) : bool_dims b b' -> In v (bvars b) -> vty v = BOOLEAN -> bool_dims b (b_setv b' v (i_point (if x then dZ 1 else dzero))).
Proof.
  intros [V K Rg S B Bn] Hv Ty. assert (Hv' : In v (bvars b')) by (rewrite V; exact Hv). split.
  - exact V.
  - apply setv_ok; [exact K|apply mk_ival_ok].
  - apply setv_range; auto. rewrite Ty. discriminate.
  - intros w Hw Nb. rewrite getv_setv_ne; auto; [rewrite V; exact Hw|congruence].
  - intros w Hw Tw. destruct (var_eqb v w) eqn:E; [apply var_eqb_eq in E; subst w; right; exists x; apply getv_setv_eq; auto|].
    rewrite getv_setv_ne; auto; [rewrite V; exact Hw|]. intros ->. rewrite (proj2 (var_eqb_eq w w) eq_refl) in E. discriminate.
  - intros Ev. rewrite Ev in Hv. destruct Hv.
Qed.
Lemma bd_bools b (bm : list (var * bool)) : (forall v x, In (v, x) bm -> In v (bvars b) /\ vty v = BOOLEAN) -> forall b', bool_dims b b' -> bool_dims b (set_bools bm b').
Proof.
  unfold set_bools. induction bm as [|[v x] bm IH]; intros H b' U; cbn [fold_left fst snd]; [exact U|].
  apply IH; [intros; eapply H; right; eauto|]. destruct (H v x (or_introl eq_refl)). apply bd_set; auto.
Qed.
Lemma set_bools_get b (bm : list (var * bool)) : (forall v x, In (v, x) bm -> In v (bvars b) /\ vty v = BOOLEAN) -> (forall v x y, In (v, x) bm -> In (v, y) bm -> x = y) ->
  forall b', bool_dims b b' -> forall v x, In (v, x) bm -> b_getv (set_bools bm b') v = i_point (if x then dZ 1 else dzero).
Proof.
  unfold set_bools. induction bm as [|[v x] bm IH]; intros H Fu b' U w y Hw; [destruct Hw|]. cbn [fold_left fst snd].
  destruct (H v x (or_introl eq_refl)) as [Hv Ty]. pose proof (bd_set b b' v x U Hv Ty) as U1.
  assert (H' : forall v x, In (v, x) bm -> In v (bvars b) /\ vty v = BOOLEAN) by (intros; eapply H; right; eauto).
  assert (Fu' : forall v x y, In (v, x) bm -> In (v, y) bm -> x = y) by (intros v0 x0 y0 A B; apply (Fu v0 x0 y0); right; assumption).
  destruct (classic (In (w, y) bm)) as [I|N]; [exact (IH H' Fu' _ U1 w y I)|]. destruct Hw as [E|C]; [|contradiction]. injection E as -> ->.
  assert (Nw : forall z, ~ In (w, z) bm) by (intros z C; apply N; rewrite (Fu w y z (or_introl eq_refl) (or_intror C)); exact C).
  assert (Keep : forall bm', incl bm' bm -> forall b1, bool_dims b b1 -> b_getv b1 w = i_point (if y then dZ 1 else dzero) ->
    b_getv (fold_left (fun (b : box) (p : var * bool) => b_setv b (fst p) (i_point (if snd p then dZ 1 else dzero))) bm' b1) w = i_point (if y then dZ 1 else dzero)).
  { induction bm' as [|[u z] bm' IHb]; intros Inc b1 U2 E1; cbn [fold_left fst snd]; [exact E1|].
    assert (Hu : In (u, z) bm) by (apply Inc; left; reflexivity). destruct (H' u z Hu) as [Hu1 Hu2].
    apply IHb; [intros q Hq; apply Inc; right; exact Hq|apply bd_set; auto|]. rewrite getv_setv_ne; auto; try (rewrite (bd_vars _ _ U2); assumption); [apply U2|]. intros ->. exact (Nw z Hu). }
  apply Keep; [apply incl_refl|exact U1|]. apply getv_setv_eq; [apply U|rewrite (bd_vars _ _ U); exact Hv].
Qed.

Section Core.
  Variables (M : interp) (D : pdom) (fold : expr -> expr -> option dbl) (pico : pico_t) (T : nat -> box -> list formula -> option tres).
  Variables (qa : Prop) (okA : formula -> Prop) (okV : var -> Prop).
  Hypothesis P_ok : pico_ok pico.
  Hypothesis T_ok : T_sound M D fold T qa okA okV.
  (** A box returned by the loop: some assignment satisfying the clauses, its Boolean part in the box and its
      theory part accepted by the theory solver. *)
  Definition sat_answer (b0 : box) (s : satst) (B : box) : Prop := exists a : nat -> option bool,
    (forall L, In L (sv_vec (ss_clauses s)) -> clause_sat a L) /\
    exists b1, bool_dims b0 b1 /\
      (forall v i x, sat_of s v = Some i -> a i = Some x -> in_pa s v = false -> is_tse s v = false -> In v (bvars b0) /\ vty v = BOOLEAN /\ b_getv b1 v = i_point (if x then dZ 1 else dzero)) /\
      (((forall f, ~ assigned s a f) /\ B = b1) \/
       exists t fs, T t b1 fs = Some (TSat B) /\ (forall f, In f fs <-> assigned s a f) /\ forall f, In f fs -> tlit fold qa okA b1 f).
  Lemma sat_answer_mono b0 s s' B : ss_to_sat s' = ss_to_sat s -> ss_pa s' = ss_pa s -> ss_tse s' = ss_tse s -> incl (sv_vec (ss_clauses s)) (sv_vec (ss_clauses s')) ->
    sat_answer b0 s' B -> sat_answer b0 s B.
  Proof.
    intros E1 E2 E3 I (a & A1 & b1 & A2 & A3 & A4). exists a. split; [intros L HL; apply A1, I, HL|]. exists b1. split; [exact A2|].
    assert (As : forall f, assigned s' a f <-> assigned s a f) by (intros f; unfold assigned, sat_of, theory_literal; rewrite E1, E2; apply iff_refl).
    unfold sat_of, in_pa, is_tse in *. rewrite E1, E2, E3 in *. split; [exact A3|].
    destruct A4 as [[A4 A5]|(t & fs & A4 & A5 & A6)]; [left|right]; [split; [|exact A5]; intros f C; apply (A4 f), As, C|].
    exists t, fs. split; [exact A4|]. split; [|exact A6]. intros f. rewrite A5. apply As.
  Qed.
  Lemma core_result n : forall b0 b s nx t B s' nx' t', score fold qa okA okV b0 s nx -> bool_dims b0 b -> core_loop fold pico T n b s nx t = Some (Some B, s', nx', t') -> sat_answer b0 s B.
  Proof.
    induction n as [|n IH]; intros b0 b s nx t B s' nx' t' Sc U E; [discriminate|]. cbn [core_loop] in E.
    pose proof (P_ok t (ss_popped s) (sv_vec (ss_clauses s)) (ss_max s)) as P.
    destruct (pico t (ss_popped s) (sv_vec (ss_clauses s)) (ss_max s)) as [a| |] eqn:Ep; [|discriminate|discriminate].
    destruct (sat_model s a) as [bm tm] eqn:Em. pose proof (bools_box fold qa okA okV b0 s nx a bm tm Sc Em) as Hb.
    pose proof (bd_bools b0 bm Hb b U) as U1. destruct (sc_ok _ _ _ _ _ _ _ Sc) as [SI SK]. destruct (sat_model_spec s a bm tm SI Em) as [Mt Mb].
    assert (Fu : forall v x y, In (v, x) bm -> In (v, y) bm -> x = y).
    { intros v x y H1 H2. apply Mb in H1, H2. destruct H1 as (i & A1 & A2 & _), H2 as (j & B1 & B2 & _). congruence. }
    assert (Bx : forall v i x, sat_of s v = Some i -> a i = Some x -> in_pa s v = false -> is_tse s v = false -> In v (bvars b0) /\ vty v = BOOLEAN /\ b_getv (set_bools bm b) v = i_point (if x then dZ 1 else dzero)).
    { intros v i x H1 H2 H3 H4. assert (Hi : In (v, x) bm) by (apply Mb; exists i; auto). destruct (Hb v x Hi) as [H5 H6]. split; [exact H5|]. split; [exact H6|].
      exact (set_bools_get b0 bm Hb Fu b U v x Hi). }
    destruct tm as [|p tm].
    - injection E as E1 E2 E3 E4. exists a. split; [exact P|]. exists (set_bools bm b). split; [exact U1|]. split; [exact Bx|]. left. split; [|symmetry; exact E1].
      intros f (v & k & val & at_ & H1 & H2 & H3 & _). destruct (proj2 (Mt v val)). exists k. split; [exact H3|]. split; [exact H1|].
      apply theory_literal_in in H2. unfold in_pa. apply existsb_exists. exists (v, at_). split; [exact H2|]. apply var_eqb_eq. reflexivity.
    - destruct (theory_lits s (p :: tm)) as [fs|] eqn:Ef; cbn [bind] in E; [|discriminate].
      pose proof (lits_tlit fold qa okA okV b0 (set_bools bm b) s nx a bm _ fs Sc (bd_vars _ _ U1) Em Ef) as Hl.
      destruct (T t (set_bools bm b) fs) as [[m|E0]|] eqn:Et; cbn [bind] in E; [| |discriminate].
      + assert (E1 : m = B) by congruence. subst m. exists a. split; [exact P|]. exists (set_bools bm b). split; [exact U1|]. split; [exact Bx|]. right. exists t, fs. split; [exact Et|]. split; [|exact Hl].
        exact (theory_lits_assigned s a bm _ fs SI Em Ef).
      + destruct (T_ok t _ fs E0 (bd_ok _ _ U1) (bd_rng _ _ U1) (fun v Hv => sc_v _ _ _ _ _ _ _ Sc v (eq_ind _ (fun l => In v l) Hv _ (bd_vars _ _ U1))) Hl Et) as [Sub _].
        destruct (learn_spec fold s nx E0 a SK) as (L & EL & F2 & _); [intros f Hf; apply (theory_lits_assigned s a bm _ fs SI Em Ef); exact (Sub f Hf)|].
        rewrite EL in E. cbn [bind fst snd] in E.
        assert (Sc' : score fold qa okA okV b0 (with_clause L s) nx).
        { destruct Sc as [C1 C2 C3 C4]. split; [exact (learned_ok fold s nx E0 L C1 F2)|exact C2|exact C3|exact C4]. }
        apply (sat_answer_mono b0 s (with_clause L s)); try reflexivity; [|exact (IH _ _ _ _ _ _ _ _ _ Sc' U1 E)].
        cbn [with_clause ss_clauses sv_push_back sv_vec]. intros x Hx. apply in_or_app. left. exact Hx.
  Qed.
End Core.

(** ** Tightening a box and extracting the model *)
Section Model.
  Variables (mid : dbl -> dbl -> dbl) (precision : dbl).
  Lemma tighten_dims_spec vs : forall is js, tighten_dims mid precision vs is = Some js -> length js = length is /\
    forall i v, nth_error vs i = Some v -> (i < length is)%nat -> tighten_dim mid precision (vty v) (nth i is IEmpty) = Some (nth i js IEmpty).
  Proof.
    induction vs as [|v vs IH]; intros is js E; cbn [tighten_dims] in E.
    - assert (X : js = is) by congruence. subst js. split; [reflexivity|]. intros i w H. destruct i; discriminate.
    - destruct is as [|i is]; [assert (X : js = []) by congruence; subst js; split; [reflexivity|]; intros j w _ H; cbn in H; lia|].
      destruct (tighten_dim mid precision (vty v) i) as [j|] eqn:E1; cbn [bind] in E; [|discriminate].
      destruct (tighten_dims mid precision vs is) as [r|] eqn:E2; cbn [bind] in E; [|discriminate]. assert (X : js = j :: r) by congruence. subst js.
      destruct (IH is r E2) as [A B]. split; [cbn [length]; lia|]. intros k w H L. destruct k as [|k]; cbn [nth nth_error length] in *; [congruence|]. apply B; [exact H|lia].
  Qed.
  Lemma tighten_spec b b' : box_ok b -> tighten mid precision b = Some b' -> bvars b' = bvars b /\ length (bvals b') = length (bvals b) /\
    forall v, In v (bvars b) -> tighten_dim mid precision (vty v) (b_getv b v) = Some (b_getv b' v).
  Proof.
    intros K E. unfold tighten in E. destruct (tighten_dims mid precision (bvars b) (bvals b)) as [js|] eqn:E1; cbn [bind] in E; [|discriminate].
    assert (X : b' = mkBox (bvars b) js) by congruence. subst b'. destruct (tighten_dims_spec _ _ _ E1) as [A B]. split; [reflexivity|]. split; [exact A|].
    intros v Hv. exact (B (b_idx0 b v) v (idx0_nth b v Hv) (box_ok_len b _ v K (idx0_nth b v Hv))).
  Qed.
  Lemma mk_ival_ends i : i_ok i -> mk_ival (ilb i) (iub i) = i.
  Proof.
    destruct i as [|l u]; [intros _; reflexivity|]. intros (K1 & K2 & K3). unfold mk_ival, ilb, iub. rewrite K1. cbn [andb].
    first [rewrite K2, K3|idtac]. reflexivity.
  Qed.
  Lemma extract_fold b vs : box_ok b -> incl vs (bvars b) -> forall m, box_ok m -> NoDup (bvars m ++ vs) ->
    (forall v, In v (bvars m) -> b_getv m v = b_getv b v) ->
    let m' := fold_left (fun nb v => b_add_dom nb v (ilb (b_getv b v)) (iub (b_getv b v))) vs m in
    box_ok m' /\ bvars m' = bvars m ++ vs /\ forall v, In v (bvars m') -> b_getv m' v = b_getv b v.
  Proof.
    intros K. induction vs as [|v vs IH]; intros Hi m Km Nd Hm; cbn [fold_left]; [rewrite app_nil_r; auto|].
    assert (Nv : ~ In v (bvars m)) by (intros C; apply NoDup_remove_2 in Nd; apply Nd; apply in_or_app; left; exact C).
    pose proof (b_add_ok m v Km Nv) as Ka. assert (Va : bvars (b_add m v) = bvars m ++ [v]) by reflexivity.
    assert (Hv : In v (bvars (b_add m v))) by (rewrite Va; apply in_or_app; right; left; reflexivity).
    assert (Em : mk_ival (ilb (b_getv b v)) (iub (b_getv b v)) = b_getv b v) by (apply mk_ival_ends, b_getv_ok; exact K).
    destruct (IH (fun x Hx => Hi x (or_intror Hx)) (b_add_dom m v (ilb (b_getv b v)) (iub (b_getv b v)))) as (X1 & X2 & X3).
    - unfold b_add_dom. apply setv_ok; [exact Ka|apply mk_ival_ok].
    - unfold b_add_dom. change (bvars (b_setv (b_add m v) v (mk_ival (ilb (b_getv b v)) (iub (b_getv b v))))) with (bvars m ++ [v]). rewrite <- app_assoc. exact Nd.
    - unfold b_add_dom. rewrite Em. change (bvars (b_setv (b_add m v) v (b_getv b v))) with (bvars m ++ [v]). intros w Hw.
      destruct (var_eqb v w) eqn:E; [apply var_eqb_eq in E; subst w; apply getv_setv_eq; auto|].
      assert (Ne : v <> w) by (intros ->; rewrite (proj2 (var_eqb_eq w w) eq_refl) in E; discriminate).
      rewrite getv_setv_ne; auto. apply in_app_or in Hw. destruct Hw as [Hw|[Hw|[]]]; [|contradiction]. rewrite <- (Hm w Hw).
      unfold b_getv. assert (Ei : b_idx0 (b_add m v) w = b_idx0 m w).
      { pose proof (idx0_nth m w Hw) as Y. pose proof (idx0_nth (b_add m v) w ltac:(rewrite Va; apply in_or_app; left; exact Hw)) as Z. rewrite Va in Z.
        assert (Y' : nth_error (bvars m ++ [v]) (b_idx0 m w) = Some w) by (rewrite nth_error_app1; [exact Y|apply nth_error_Some; congruence]).
        pose proof (proj1 Ka) as Nd'. rewrite Va in Nd'. rewrite NoDup_nth_error in Nd'. apply Nd'; [apply nth_error_Some; congruence|congruence]. }
      rewrite Ei. apply b_add_old; auto. assert (X : nth_error (bvars m) (b_idx0 m w) = Some w) by (apply idx0_nth; exact Hw). apply nth_error_Some. congruence.
    - split; [exact X1|]. split; [|exact X3]. rewrite X2. unfold b_add_dom. change (bvars (b_setv (b_add m v) v (mk_ival (ilb (b_getv b v)) (iub (b_getv b v))))) with (bvars m ++ [v]). rewrite <- app_assoc. reflexivity.
  Qed.
  Lemma mem_var_In v l : mem_var v l = true <-> In v l.
  Proof. unfold mem_var. rewrite existsb_exists. split; [intros (x & H & E); apply var_eqb_eq in E; subst; exact H|intros H; exists v; split; [exact H|apply var_eqb_eq; reflexivity]]. Qed.
  Lemma extract_spec mv b : box_ok b -> let m := extract_model mv b in
    box_ok m /\ (forall v, In v (bvars b) -> In v mv -> In v (bvars m)) /\ (forall v, In v (bvars m) -> In v (bvars b) /\ b_getv m v = b_getv b v) /\
    (NoDup mv -> incl mv (bvars b) -> forall v, In v (bvars m) -> In v mv).
  Proof.
    intros K. unfold extract_model. destruct (Nat.eqb_spec (length mv) (b_size b)) as [E|E]; cbn zeta.
    - split; [exact K|]. split; [auto|]. split; [auto|]. intros Nd I v Hv. apply (@NoDup_length_incl _ mv (bvars b) Nd); [unfold b_size in E; lia|exact I|exact Hv].
    - set (vs := filter (fun v => mem_var v mv) (bvars b)).
      assert (Iv : incl vs (bvars b)) by (intros x Hx; apply filter_In in Hx; apply Hx).
      assert (Nd : NoDup vs) by (apply NoDup_filter, K).
      destruct (extract_fold b vs K Iv box0) as (A & B & C); [split; [constructor|split; [reflexivity|repeat constructor]]|exact Nd|intros v []|].
      cbn [bvars box0 app] in B. split; [exact A|]. split; [|split].
      + intros v H1 H2. rewrite B. apply filter_In. split; [exact H1|apply mem_var_In; exact H2].
      + intros v Hv. split; [|exact (C v Hv)]. rewrite B in Hv. exact (Iv v Hv).
      + intros _ _ v Hv. rewrite B in Hv. apply filter_In in Hv. apply mem_var_In, Hv.
  Qed.
End Model.

(** ** A further invariant along a history *)
Section Run.
  Variables (M : interp) (D : pdom) (fold : expr -> expr -> option dbl) (K : eops) (pico : pico_t) (T : nat -> box -> list formula -> option tres).
  Variables (mid : dbl -> dbl -> dbl) (precision : dbl) (n : nat) (qa : Prop) (okA : formula -> Prop) (okV : var -> Prop).
  Hypothesis OKV_CONT : forall v, vty v = CONTINUOUS -> okV v.
  Hypothesis RC : rc_ok M.
  Hypothesis P_ok : pico_ok pico.
  Hypothesis T_ok : T_sound M D fold T qa okA okV.
  Notation step := (cx_step fold K pico T mid precision). Notation run := (cx_run fold K pico T mid precision).
  Notation linv := (linv M D fold n qa). Notation gok := (gok fold n). Notation cinv := (cinv M D fold n qa okV).
  Notation op_ok := (op_ok_q M D fold K n qa).

  (** A delta-sat answer. *)
  Lemma check_answer g c b saved p ps k m c' : cinv g c b saved p ps -> (forall v a, In (v, a) (ss_pa (cx_sat c)) -> okA a) ->
    cx_check fold pico T mid precision k c = Some (Some m, c') ->
    b_empty b = false /\ (forall f, In f (sv_vec (cx_stack c)) -> is_false f = false) /\
    exists B B1, tighten mid precision B = Some B1 /\ m = extract_model (cx_mvars c) B1 /\
      (((sv_vec (cx_stack c) = [] \/ sv_vec (cx_stack c) = [FTrue]) /\ B = b) \/ sat_answer fold T qa okA b (cx_sat c) B).
  Proof.
    intros C HA E. unfold cx_check in E. destruct (check_core fold pico T k c) as [[ob c1]|] eqn:Ec; cbn [bind] in E; [|discriminate].
    destruct ob as [B|]; [|discriminate]. destruct (tighten mid precision B) as [B1|] eqn:Et; cbn [bind] in E; [|discriminate].
    assert (E1 : m = extract_model (cx_mvars c1) B1) by congruence. clear E.
    pose proof C as C0. destruct C0 as [I1 I2 I3 I4 I5 I6 I7 I8]. unfold check_core in Ec. rewrite (csim_box _ _ _ I1) in Ec. cbn [bind] in Ec.
    destruct (b_empty b) eqn:Eb; [discriminate|]. split; [reflexivity|].
    destruct (existsb is_false (sv_vec (cx_stack c))) eqn:Ex; [discriminate|]. split.
    { intros f Hf. destruct (is_false f) eqn:Ef; [|reflexivity]. rewrite <- Ex. symmetry. apply existsb_exists. exists f. auto. }
    exists B, B1. split; [exact Et|].
    destruct (sv_vec (cx_stack c)) as [|h st] eqn:Est.
    { injection Ec as Eb' Ec'. subst c1. split; [exact E1|]. left. split; [left; reflexivity|symmetry; exact Eb']. }
    destruct (match h :: st with [f0] => is_true f0 | _ => false end) eqn:Eh.
    { injection Ec as Eb' Ec'. subst c1. split; [exact E1|]. left. split; [right|symmetry; exact Eb']. destruct st; [|discriminate]. destruct h; try discriminate. reflexivity. }
    destruct (core_loop fold pico T k b (cx_sat c) (cx_next c) (cx_calls c)) as [[[[ob' s'] nx'] t']|] eqn:El; cbn [bind] in Ec; [|discriminate].
    injection Ec as Eb' Ec'. subst c1 ob'. cbn [cx_mvars] in E1. split; [exact E1|]. right.
    assert (Sc : score fold qa okA okV b (cx_sat c) (cx_next c)).
    { split.
      - split; [exact (linv_sat_inv M D fold n qa g (lev c b) p (cx_sat c) I6 eq_refl (eq_sym I5))|]. rewrite <- I3, <- I4. exact (go_pa fold n g I2).
      - intros v Hv. destruct (li_bv _ _ _ _ _ _ _ _ I6 v Hv) as [H|[_ H]]; [exact (I8 p v (or_introl eq_refl) H)|]. exact (OKV_CONT v H).
      - exact HA.
      - intros v kk Hk. rewrite <- I4. destruct (li_var _ _ _ _ _ _ _ _ I6 v kk Hk) as [H|[H1 H2]]; [left; exact H|right; split; [exact H1|]].
        destruct H2 as [H2|H2]; [left; unfold is_tse; cbn [lev v_sat slv l_tse] in H2; destruct (al_find var_eqb v (sm_map (ss_tse (cx_sat c)))); [reflexivity|congruence]|right; exact H2]. }
    apply (core_result M D fold pico T qa okA okV P_ok T_ok k b b (cx_sat c) (cx_next c) (cx_calls c) B s' nx' t' Sc (bd_refl b (li_box _ _ _ _ _ _ _ _ I6) (li_rng _ _ _ _ _ _ _ _ I6)) El).
  Qed.

  (** Model variables. *)
  Definition marked (c : ctx) (ms : list var) : Prop := NoDup (cx_mvars c) /\ forall v, In v (cx_mvars c) <-> In v ms.
  Lemma set_box_mvars b c c' : cx_set_box b c = Some c' -> cx_mvars c' = cx_mvars c.
  Proof. unfold cx_set_box. destruct (sv_set_last b (cx_boxes c)); try discriminate. intros [= <-]. reflexivity. Qed.
  Lemma declare_mvars v m c c' ms : cx_declare v m c = Some c' -> marked c ms -> marked c' (if m then v :: ms else ms).
  Proof.
    unfold cx_declare. destruct (cx_box c) as [b|]; cbn [bind]; [|discriminate]. destruct (cx_set_box _ c) as [c1|] eqn:E; cbn [bind]; [|discriminate]. intros [= <-].
    apply set_box_mvars in E. intros [N H]. unfold marked. destruct m; cbn [andb]; [|rewrite E; auto].
    destruct (mem_var v (cx_mvars c1)) eqn:Em; cbn [negb cx_mvars].
    - rewrite E in *. split; [exact N|]. apply mem_var_In in Em. intros w. rewrite H. split; [right; assumption|]. intros [<-|X]; [apply H; exact Em|exact X].
    - rewrite E in *. split; [constructor; [|exact N]; intros X; apply mem_var_In in X; congruence|]. intros w. cbn [In]. rewrite H. apply iff_refl.
  Qed.
  Lemma step_mvars o c c' a ms : step o c = Some (c', a) -> marked c ms -> marked c' (mark o ms).
  Proof.
    intros E Hm. destruct o; cbn [cx_step mark] in *.
    - destruct (Nat.eqb _ _); [|discriminate]. injection E as <- <-. exact Hm.
    - destruct (cx_declare v model c) as [c1|] eqn:E1; cbn [bind] in E; [|discriminate]. injection E as <- <-. exact (declare_mvars _ _ _ _ _ E1 Hm).
    - destruct (cx_declare v model c) as [c1|] eqn:E1; cbn [bind] in E; [|discriminate]. destruct (cx_set_interval v l u c1) as [c2|] eqn:E2; cbn [bind] in E; [|discriminate].
      injection E as <- <-. pose proof (declare_mvars _ _ _ _ _ E1 Hm) as X. unfold marked in *. unfold cx_set_interval in E2. destruct (cx_box c1) as [b|]; cbn [bind] in E2; [|discriminate].
      rewrite (set_box_mvars _ _ _ E2). exact X.
    - destruct (cx_set_interval v l u c) as [c2|] eqn:E2; cbn [bind] in E; [|discriminate]. injection E as <- <-. unfold marked in *. unfold cx_set_interval in E2. destruct (cx_box c) as [b|]; cbn [bind] in E2; [|discriminate].
      rewrite (set_box_mvars _ _ _ E2). exact Hm.
    - destruct (cx_assert fold K f c) as [c1|] eqn:E1; cbn [bind] in E; [|discriminate]. injection E as <- <-. unfold cx_assert in E1. unfold marked in *.
      destruct (is_true f); [injection E1 as <-; exact Hm|]. destruct (cx_box c) as [b|]; cbn [bind] in E1; [|discriminate]. destruct (b_empty b); [injection E1 as <-; exact Hm|].
      destruct (is_false f); [rewrite (set_box_mvars _ _ _ E1); exact Hm|]. destruct (filter_assertion f b) as [[r b']|]; cbn [bind fst snd] in E1; [|discriminate].
      destruct r; try (rewrite (set_box_mvars _ _ _ E1); exact Hm). destruct (ite_process fold K f (cx_next c)) as [g s].
      destruct (cx_set_box _ c) as [c2|] eqn:E2; cbn [bind] in E1; [|discriminate]. destruct (sat_add_formula fold g (it_next s) (cx_sat c2)) as [q|] eqn:E3; cbn [bind] in E1; [|discriminate].
      injection E1 as <-. cbn [cx_with_sat cx_push_stack cx_mvars]. rewrite (set_box_mvars _ _ _ E2). exact Hm.
    - destruct (cx_push c) as [c1|] eqn:E1; cbn [bind] in E; [|discriminate]. injection E as <- <-. unfold cx_push in E1. destruct (cx_box c); cbn [bind] in E1; [|discriminate]. injection E1 as <-. exact Hm.
    - destruct (cx_pop c) as [c1|] eqn:E1; cbn [bind] in E; [|discriminate]. injection E as <- <-. unfold cx_pop in E1.
      destruct (sv_pop (cx_stack c)) as [[? ?]| |]; try discriminate. destruct (sv_pop (cx_boxes c)) as [[? ?]| |]; try discriminate.
      destruct (sat_pop (cx_sat c)) as [s1|] eqn:E2; cbn [bind] in E1; [|discriminate]. injection E1 as <-. exact Hm.
    - destruct (cx_check fold pico T mid precision fuel c) as [[r c1]|] eqn:E1; cbn [bind fst snd] in E; [|discriminate]. injection E as <- <-.
      unfold cx_check in E1. destruct (check_core fold pico T fuel c) as [[ob c2]|] eqn:E2; cbn [bind] in E1; [|discriminate].
      assert (X : cx_mvars c2 = cx_mvars c).
      { unfold check_core in E2. destruct (cx_box c) as [b|]; cbn [bind] in E2; [|discriminate]. destruct (b_empty b); [injection E2 as _ <-; reflexivity|].
        destruct (existsb is_false _); [injection E2 as _ <-; reflexivity|]. destruct (sv_vec (cx_stack c)) as [|f st]; [injection E2 as _ <-; reflexivity|].
        destruct (match f :: st with [f0] => is_true f0 | _ => false end); [injection E2 as _ <-; reflexivity|].
        destruct (core_loop _ _ _ _ _ _ _ _) as [[[[ob' s'] nx'] t']|] eqn:El; cbn [bind] in E2; [|discriminate]. injection E2 as _ <-. reflexivity. }
      unfold marked in *. destruct ob as [m|]; [destruct (tighten mid precision m) as [m1|]; cbn [bind] in E1; [|discriminate]|]; injection E1 as _ <-; cbn [cx_with_model cx_mvars]; rewrite X; exact Hm.
  Qed.

  Variable X : glob -> level -> problem -> Prop.
  Variable xop : problem -> cop -> Prop.
  Variable Ans : problem -> list var -> option box -> Prop.
  Hypothesis Xmono : forall g g' lv p, gext g g' -> linv g lv p -> X g lv p -> X g' lv p.
  Hypothesis Xstep : forall g c b saved p ps o c' a g' b', cinv g c b saved p ps -> X g (lev c b) p -> op_ok (g_news g) p o -> xop p o -> step o c = Some (c', a) ->
    cinv g' c' b' saved (fst (p_step o (p, ps))) ps -> gext g g' -> g_news g' = news_step o (g_news g) -> o <> OPush -> o <> OPop -> X g' (lev c' b') (fst (p_step o (p, ps))).
  Hypothesis Xans : forall g c b saved p ps ms k r c', cinv g c b saved p ps -> X g (lev c b) p -> marked c ms -> (forall v a, In (v, a) (ss_pa (cx_sat c)) -> okA a) ->
    cx_check fold pico T mid precision k c = Some (r, c') -> Ans p ms r.
  Fixpoint xadm (ops : list cop) (st : problem * list problem) : Prop :=
    match ops with [] => True | o :: r => xop (fst st) o /\ xadm r (p_step o st) end.
  Lemma xsaved g g' saved ps : gext g g' -> Forall2 (linv g) saved ps -> Forall2 (X g) saved ps -> Forall2 (X g') saved ps.
  Proof. intros E H. induction H; intros Y; inversion Y; subst; constructor; eauto. Qed.
  Lemma run_extra ops : forall g c b saved p ps ms c' a, cinv g c b saved p ps -> X g (lev c b) p -> Forall2 (X g) saved ps -> marked c ms ->
    admissible_q M D fold K n qa ops (g_news g) (p, ps) -> Forall (op_okV okV) ops -> xadm ops (p, ps) ->
    run ops c = Some (c', a) -> (forall v f, In (v, f) (ss_pa (cx_sat c')) -> okA f) ->
    Forall2 (fun q r => Ans (fst q) (snd q) r) (checks ops (p, ps) ms) a.
  Proof.
    induction ops as [|o ops IH]; intros g c b saved p ps ms c' a C X0 Xs Mk Ad Vk Xa E HA; cbn [cx_run] in E.
    { injection E as <- <-. constructor. }
    destruct (step o c) as [[c1 a1]|] eqn:E1; cbn [bind fst snd] in E; [|discriminate].
    destruct (run ops c1) as [[c2 a2]|] eqn:E2; cbn [bind fst snd] in E; [|discriminate]. injection E as <- <-.
    destruct Ad as [Ok Ad]. inversion Vk as [|? ? Vo Vr]; subst. cbn [fst] in Ok. destruct Xa as [Xo Xr]. cbn [fst] in Xo.
    assert (HA0 : forall v f, In (v, f) (ss_pa (cx_sat c)) -> okA f).
    { intros v f H. apply (HA v f). apply (run_pa fold K pico T mid precision ops c1 c2 a2 E2). apply (step_pa fold K pico T mid precision o c c1 a1 E1). exact H. }
    destruct (step_inv M D fold K pico T mid precision n qa okA okV OKV_CONT RC P_ok T_ok g c b saved p ps o c1 a1 C Ok Vo HA0 E1) as [(g' & b' & C' & N' & Ge & Pp) Ra].
    pose proof (step_mvars o c c1 a1 ms E1 Mk) as Mk'.
    assert (Nx : X g' (lev c1 b') (fst (p_step o (p, ps))) /\ Forall2 (X g') (saved_step o c b saved) (snd (p_step o (p, ps)))).
    { pose proof (xsaved g g' saved ps Ge (ci_sav _ _ _ _ _ _ _ _ _ _ _ _ C) Xs) as Xs'.
      destruct o; try (split; [apply (Xstep g c b saved p ps _ c1 a1 g' b' C X0 Ok Xo E1 C' Ge N'); discriminate|exact Xs']).
      - cbn [p_step fst snd saved_step]. destruct (cx_push_sim c b saved (ci_sim _ _ _ _ _ _ _ _ _ _ _ _ C)) as (c3 & F1 & F2 & F3 & _). cbn [cx_step] in E1. rewrite F1 in E1. cbn [bind] in E1. injection E1 as E1 _. subst c3.
        assert (Eb : b' = b) by (pose proof (csim_box _ _ _ F2) as Y1; pose proof (csim_box _ _ _ (ci_sim _ _ _ _ _ _ _ _ _ _ _ _ C')) as Y2; congruence). subst b'. rewrite F3.
        pose proof (Xmono g g' _ _ Ge (ci_lev _ _ _ _ _ _ _ _ _ _ _ _ C) X0) as Y. split; [exact Y|]. constructor; [exact Y|exact Xs'].
      - destruct (Pp eq_refl) as (l & El & Ll). rewrite El in Xs'. inversion Xs' as [|x q xs qs Hl Hs Ex Eq]. cbn [p_step fst snd saved_step]. rewrite Ll. split; [exact Hl|exact Hs]. }
    destruct Nx as [X1 X2]. rewrite <- N' in Ad. rewrite (surjective_pairing (p_step o (p, ps))) in Ad, Xr.
    pose proof (IH g' c1 b' _ _ _ (mark o ms) c2 a2 C' X1 X2 Mk' Ad Vr Xr E2 HA) as Y.
    rewrite <- (surjective_pairing (p_step o (p, ps))) in Y.
    destruct o; try (subst a1; exact Y). destruct Ra as (r & -> & Hr). cbn [checks app fst]. constructor; [|exact Y]. cbn [fst snd].
    cbn [cx_step] in E1. destruct (cx_check fold pico T mid precision fuel c) as [[r' c3]|] eqn:E3; cbn [bind fst snd] in E1; [|discriminate].
    injection E1 as _ <-. exact (Xans g c b saved p ps ms fuel _ c3 C X0 Mk HA0 E3).
  Qed.
End Run.
