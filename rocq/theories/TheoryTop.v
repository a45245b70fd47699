(** The theory solver: an explanation is unsatisfiable on its own over the box. *)
From Coq Require Import ZArith Reals Lra Lia List Bool.
From Flocq Require Import Core.Core IEEE754.BinarySingleNaN.
From Verif Require Import Dbl DblProofs Syntax Sem SemProofs Interval IntervalProofs MathConv MathConvProofs IEval IEvalProofs Contr ContrProofs IbexConv IbexConvProofs Icp IcpProofs IcpTop IcpPar IcpParProofs Filter FilterProofs Theory ExplainProofs TheoryProofs TheoryUsed.
Import ListNotations.

Lemma filt_nochange f : forall pol b b', filt f pol b = Some (FilteredWithoutChange, b') -> b' = b.
Proof.
  assert (U1 : forall v c b b', upd_lb v c b = (FilteredWithoutChange, b') -> b' = b).
  { intros v c b b'. unfold upd_lb. destruct (dle c (ilb (b_getv b v))); [intros [= <-]; auto|]. destruct (dle _ _); discriminate. }
  assert (U2 : forall v c b b', upd_ub v c b = (FilteredWithoutChange, b') -> b' = b).
  { intros v c b b'. unfold upd_ub. destruct (dge c (iub (b_getv b v))); [intros [= <-]; auto|]. destruct (dge _ _); discriminate. }
  assert (U3 : forall v c b b', upd_eq v c b = (FilteredWithoutChange, b') -> b' = b).
  { intros v c b b'. unfold upd_eq. destruct (_ && _); [intros [= <-]; auto|]. destruct (i_contains _ _); discriminate. }
  assert (U4 : forall v l u b b', upd_eq2 v l u b = (FilteredWithoutChange, b') -> b' = b).
  { intros v l u b b'. unfold upd_eq2. destruct (_ && _); [intros [= <-]; auto|]. cbv zeta. destruct (i_empty _); discriminate. }
  assert (U5 : forall v c b b', upd_slb v c b = Some (FilteredWithoutChange, b') -> b' = b).
  { intros v c b b'. unfold upd_slb. destruct (vty v); try discriminate. intros [= E]. eapply U1; eauto. }
  assert (U6 : forall v c b b', upd_sub v c b = Some (FilteredWithoutChange, b') -> b' = b).
  { intros v c b b'. unfold upd_sub. destruct (vty v); try discriminate. intros [= E]. eapply U2; eauto. }
  assert (S : forall (p : fres * box) b b', Some p = Some (FilteredWithoutChange, b') -> (forall b', p = (FilteredWithoutChange, b') -> b' = b) -> b' = b).
  { intros p b b' [= ->] H. apply H. auto. }
  induction f as [| |v|o x y|gs|gs|g IH|vs g]; intros pol b b'; cbn [filt]; try discriminate; [|apply IH].
  assert (Q1 : forall pol, filt_eq x y pol b = Some (FilteredWithoutChange, b') -> b' = b).
  { intros p. unfold filt_eq. destruct (negb p); [discriminate|]. destruct x, y; try discriminate; intros E; (eapply S; [exact E|]; intros; eauto). }
  assert (Q2 : forall pol, filt_gt x y pol b = Some (FilteredWithoutChange, b') -> b' = b).
  { intros p. unfold filt_gt. destruct x, y; try discriminate; destruct p; intros E; match type of E with upd_slb _ _ _ = _ => exact (U5 _ _ _ _ E) | upd_sub _ _ _ = _ => exact (U6 _ _ _ _ E) | Some (upd_lb _ _ _) = _ => injection E as E; exact (U1 _ _ _ _ E) | _ => injection E as E; exact (U2 _ _ _ _ E) end. }
  assert (Q3 : forall pol, filt_geq x y pol b = Some (FilteredWithoutChange, b') -> b' = b).
  { intros p. unfold filt_geq. destruct x, y; try discriminate; destruct p; intros E; match type of E with upd_slb _ _ _ = _ => exact (U5 _ _ _ _ E) | upd_sub _ _ _ = _ => exact (U6 _ _ _ _ E) | Some (upd_lb _ _ _) = _ => injection E as E; exact (U1 _ _ _ _ E) | _ => injection E as E; exact (U2 _ _ _ _ E) end. }
  destruct o; eauto.
Qed.
Lemma gap_free_agree f rho rho' : (forall v, In v (fvF f) -> rho v = rho' v) -> gap_free f rho -> gap_free f rho'.
Proof.
  unfold gap_free, gap_free_pol. intros A C S. specialize (C S). revert C. destruct (bound_lit f) as [[[o v] cs]|] eqn:E; auto.
  assert (X : In v (fvF f)).
  { clear A S. induction f as [| |w|p x y|gs|gs|g IH|vs g]; cbn [bound_lit fvF] in *; try discriminate; [|auto].
    apply in_or_app. destruct x; try (destruct y; try discriminate; injection E as <- <- <-; right; left; auto; fail). injection E as <- <- <-. left; left; auto. }
  rewrite (A v X). auto.
Qed.
Lemma b_eqb_true a b i x : b_full a -> b_empty a = false -> length (bvals a) = length (bvals b) -> b_eqb a b = true -> imem x (b_get a i) -> imem x (b_get b i).
Proof.
  intros F Ea L. unfold b_eqb. rewrite Ea. cbn [orb andb]. destruct (b_empty b); [discriminate|]. rewrite forallb_forall. intros H Hx.
  destruct (Nat.lt_ge_cases i (length (bvals a))) as [Hi|Hi].
  - apply (i_eqb_mem (b_get a i) (b_get b i)); auto. unfold b_get. specialize (H (nth i (bvals a) IEmpty, nth i (bvals b) IEmpty)). apply H.
    rewrite <- (combine_nth (bvals a) (bvals b) i IEmpty IEmpty L). apply nth_In. rewrite combine_length. lia.
  - exfalso. unfold b_get in Hx. rewrite nth_overflow in Hx by auto. exact Hx.
Qed.

Lemma filter_sub M f b r b' : rc_ok M -> box_ok b -> (forall v, In v (fvF f) -> In v (bvars b)) -> finF f -> filter_assertion f b = Some (r, b') -> box_ok b' /\ box_sub b' b.
Proof.
  intros RC K Hv Fin Ef. destruct (filt_spec M b RC K f true r b' Hv Fin Ef) as [[_ ->]|(v & i & P & O & Hi & Hn & HP & _)]; [split; auto; apply box_sub_refl|].
  destruct (narrowed_ok P i b b' K Hn) as [K' V']. split; auto. split; auto. intros j x Hx. destruct Hn as [[-> _]|(y & -> & Ky & Ey & Hy)].
  - exfalso. unfold b_get, b_set_empty in Hx. cbn [bvals] in Hx. rewrite (map_nth (fun _ => IEmpty) (bvals b) IEmpty j) in Hx. exact Hx.
  - destruct (Nat.eq_dec i j) as [<-|N]; [rewrite b_get_set_eq in Hx by (eapply box_ok_len; eauto); apply Hy; auto|rewrite b_get_set_ne in Hx by auto; auto].
Qed.

Section Top.
  Variables (M : interp) (D : pdom) (Orc : oracles) (term : list ival -> list ival -> bool) (m : nat).
  Variables (esub : expr -> expr -> expr) (eneg : expr -> expr) (n : nat).
  Variables (fs : list formula) (b0 : box).
  Hypothesis RC : rc_ok M.
  Hypothesis Hfv : forall f v, In f fs -> In v (fvF f) -> In v (bvars b0).
  Hypothesis Hfin : forall f, In f fs -> finF f.
  Hypothesis Hlit : forall f c, In f fs -> lit_ctc esub eneg n (bvars b0) f = Some c -> c_ok M D Orc (bvars b0) c.

  Lemma lit_plain f c vars : lit_ctc esub eneg n vars f = Some c -> c_plain c.
  Proof.
    unfold lit_ctc, mk_fwd. destruct (is_forall f); [intros [= <-]; cbn; auto|]. destruct (ibex_convert esub eneg vars n f) as [[d|]| | |]; try discriminate; intros [= <-]; exact I.
  Qed.

  Section Fixed.
    Variables (U : list formula) (W : list var) (rho : env).
    Notation E := (explanation W U).
    Hypothesis HE : incl E fs.
    Hypothesis Hwt : well_typed rho.
    Hypothesis Hgap : forall f, In f E -> gap_free f rho.
    Hypothesis Hsol : forall f, In f E -> solves M D f rho.
    Notation good := (good U W rho).
    Notation R := (R U W).
    Notation V := (V U W).

    Lemma filter_good f b r b' : In f fs -> box_ok b -> bvars b = bvars b0 -> good b -> filter_assertion f b = Some (r, b') ->
      (b_empty b' = true -> In f U /\ forall v, In v (fvF f) -> In v W) -> (b_eqb b b' = false -> r <> FilteredWithoutChange -> In f U) ->
      good b' /\ box_ok b' /\ box_sub b' b.
    Proof.
      intros Hf K Ev G Ef He Hc. assert (Hv : forall v, In v (fvF f) -> In v (bvars b)) by (rewrite Ev; intros v; apply Hfv; auto).
      pose proof (Hfin f Hf) as Fin. unfold filter_assertion in Ef.
      destruct (filt_spec M b RC K f true r b' Hv Fin Ef) as [[_ ->]|(v & i & P & O & Hi & Hn & HP & _)]; [split; auto; split; auto; apply box_sub_refl|].
      destruct (narrowed_ok P i b b' K Hn) as [K' V'].
      assert (Sb : box_sub b' b).
      { split; auto. intros j x Hx. destruct Hn as [[-> _]|(y & -> & Ky & Ey & Hy)].
        - exfalso. unfold b_get, b_set_empty in Hx. cbn [bvals] in Hx. rewrite (map_nth (fun _ => IEmpty) (bvals b) IEmpty j) in Hx. exact Hx.
        - destruct (Nat.eq_dec i j) as [<-|N]; [rewrite b_get_set_eq in Hx by (eapply box_ok_len; eauto); apply Hy; auto|rewrite b_get_set_ne in Hx by auto; auto]. }
      split; [|auto]. destruct (mem_form f E) eqn:Em.
      - apply mem_form_In in Em. destruct (complete U W rho b K G) as (rho' & A & B).
        assert (A' : forall v, In v (fvF f) -> rho v = rho' v) by (intros w Hw; symmetry; apply A; eapply V_fv; eauto).
        assert (I' : in_box rho' b').
        { apply (narrowed_in P i v b b'); auto. split; auto. apply HP; [|apply (gap_free_agree f rho); auto]. apply (solves_agree M D f rho rho' A' (Hsol f Em)). }
        split; [apply (in_box_full rho'); auto|]. intros j w Hj Hw. rewrite <- (A w Hw). apply I'; auto.
      - assert (Nf : ~ In f E) by (intros C; apply mem_form_In in C; congruence).
        destruct Hn as [[-> _]|(y & -> & Ky & Ey & Hy)].
        + exfalso. apply Nf. destruct He as [He1 He2]; [|apply U_wit; auto]. unfold b_empty, b_set_empty. cbn [bvals]. destruct (bvals b); reflexivity.
        + split; [apply b_set_full; [apply G|auto]|]. intros j w Hj Hw. cbn [b_set bvars] in Hj. destruct (Nat.eq_dec i j) as [<-|N]; [|rewrite b_get_set_ne by auto; apply G; auto].
          pose proof (proj2 G i w Hj Hw) as Hm. rewrite Hi in Hj. injection Hj as <-.
          destruct r.
          * destruct (b_eqb b (b_set b i y)) eqn:Eq.
            -- apply (b_eqb_true b (b_set b i y) i); auto; [apply G|apply full_nonempty; auto; apply G|cbn [b_set bvals]; rewrite upd_nth_length; auto].
            -- exfalso. apply Nf. apply (V_closed U W f v); auto; [apply Hc; auto; discriminate|]. apply O.
          * destruct (b_eqb b (b_set b i y)) eqn:Eq.
            -- apply (b_eqb_true b (b_set b i y) i); auto; [apply G|apply full_nonempty; auto; apply G|cbn [b_set bvals]; rewrite upd_nth_length; auto].
            -- exfalso. apply Nf. apply (V_closed U W f v); auto; [apply Hc; auto; discriminate|]. apply O.
          * apply filt_nochange in Ef. rewrite Ef. exact Hm.
    Qed.

    Lemma build_loop_R l : forall s acc s' o, build_loop esub eneg n l s acc = Some (s', o) -> R s' -> R s.
    Proof.
      induction l as [|f l IH]; intros s acc s' o; cbn [build_loop]; [intros [= <- _]; auto|].
      destruct (filter_assertion f (cs_box s)) as [[r b']|]; cbn [bind]; [|discriminate]. destruct r.
      - destruct (lit_ctc esub eneg n (bvars b') f) as [c|]; cbn [bind]; [|discriminate]. intros E1 HR. apply IH in E1; auto.
        destruct (b_eqb _ _); [exact E1|apply R_used in E1; exact E1].
      - destruct (b_empty b').
        + intros [= <- _] HR. assert (X : R (add_used (cs_with_box s b') f)).
          { destruct HR as [A B]. split; [intros x Hx; apply A|intros x Hx; apply B].
            - destruct (fold_witness_same (fvF f) (add_used (cs_with_box s b') f)) as (_ & _ & -> & _). auto.
            - apply fold_witness_in. auto. }
          apply R_used in X. exact X.
        + intros E1 HR. apply IH in E1; auto. apply R_used in E1. exact E1.
      - intros E1 HR. apply IH in E1; auto.
    Qed.
    Lemma build_loop_good l : incl l fs -> forall s acc s' o, box_ok (cs_box s) -> bvars (cs_box s) = bvars b0 -> good (cs_box s) ->
      build_loop esub eneg n l s acc = Some (s', o) -> R s' ->
      o <> None /\ good (cs_box s') /\ box_ok (cs_box s') /\ box_sub (cs_box s') (cs_box s).
    Proof.
      induction l as [|f l IH]; intros Hl s acc s' o K Ev G; cbn [build_loop]; [intros [= <- <-] _; split; [discriminate|]; split; auto; split; auto; apply box_sub_refl|].
      assert (Hf : In f fs) by (apply Hl; left; auto). assert (Hl' : incl l fs) by (intros x Hx; apply Hl; right; auto).
      destruct (filter_assertion f (cs_box s)) as [[r b']|] eqn:Ef; cbn [bind]; [|discriminate].
      assert (Next : forall s2 acc2, cs_box s2 = b' -> good b' /\ box_ok b' /\ box_sub b' (cs_box s) -> build_loop esub eneg n l s2 acc2 = Some (s', o) -> R s' ->
         o <> None /\ good (cs_box s') /\ box_ok (cs_box s') /\ box_sub (cs_box s') (cs_box s)).
      { intros s2 acc2 E2 (G2 & K2 & S2) E3 HR. destruct (IH Hl' s2 acc2 s' o) as (A & B & C & F); auto; try (rewrite E2; auto).
        - rewrite (proj1 S2). auto.
        - split; auto. split; auto. split; auto. eapply box_sub_trans; [exact F|]. rewrite E2. exact S2. }
      destruct r.
      - destruct (lit_ctc esub eneg n (bvars b') f) as [c|]; cbn [bind]; [|discriminate]. intros E1 HR. pose proof (build_loop_R _ _ _ _ _ E1 HR) as R1.
        eapply Next; [|  |exact E1|exact HR]; [destruct (b_eqb _ _); [reflexivity|apply add_used_box]|].
        apply (filter_good f (cs_box s) NotFiltered); auto.
        + intros Eb. assert (Eq : b_eqb (cs_box s) b' = false). { unfold b_eqb. rewrite Eb, (full_nonempty _ K (proj1 G)). reflexivity. }
          rewrite Eq in R1. split; [eapply R_used_in; eauto|]. eapply R_used_wit; [|exact R1]. exact Eb.
        + intros Eq _. rewrite Eq in R1. eapply R_used_in; eauto.
      - destruct (b_empty b') eqn:Eb.
        + intros [= <- <-] HR. exfalso.
          assert (X : good b').
          { apply (filter_good f (cs_box s) FilteredWithChange); auto.
            - intros _. destruct HR as [A B]. split.
              + apply A. destruct (fold_witness_same (fvF f) (add_used (cs_with_box s b') f)) as (_ & _ & -> & _). apply add_used_used. auto.
              + intros v Hv. apply B. apply fold_witness_in. auto.
            - intros _ _. destruct HR as [A B]. apply A. destruct (fold_witness_same (fvF f) (add_used (cs_with_box s b') f)) as (_ & _ & -> & _). apply add_used_used. auto. }
          assert (K' : box_ok b'). { apply (filter_shrinks M f (cs_box s) b' FilteredWithChange); auto. rewrite Ev. intros v. apply Hfv; auto. }
          rewrite (full_nonempty _ K' (proj1 X)) in Eb. discriminate.
        + intros E1 HR. pose proof (build_loop_R _ _ _ _ _ E1 HR) as R1. eapply Next; [| |exact E1|exact HR]; [apply add_used_box|].
          apply (filter_good f (cs_box s) FilteredWithChange); auto; [congruence|]. intros _ _. eapply R_used_in; eauto.
      - intros E1 HR. pose proof (filt_nochange f true (cs_box s) b' Ef) as ->. eapply Next; [| |exact E1|exact HR]; [reflexivity|].
        split; auto. split; auto. apply box_sub_refl.
    Qed.
    Lemma build_loop_ctcs l : incl l fs -> forall s acc s' cs, box_ok (cs_box s) -> bvars (cs_box s) = bvars b0 ->
      Forall (fun c => c_ok M D Orc (bvars b0) c /\ c_plain c) acc -> build_loop esub eneg n l s acc = Some (s', Some cs) ->
      Forall (fun c => c_ok M D Orc (bvars b0) c /\ c_plain c) cs.
    Proof.
      induction l as [|f l IH]; intros Hl s acc s' cs K Ev F; cbn [build_loop]; [intros [= _ <-]; auto|].
      assert (Hf : In f fs) by (apply Hl; left; auto). assert (Hl' : incl l fs) by (intros x Hx; apply Hl; right; auto).
      destruct (filter_assertion f (cs_box s)) as [[r b']|] eqn:Ef; cbn [bind]; [|discriminate].
      assert (X : box_ok b' /\ bvars b' = bvars b0). { destruct (filter_shrinks M f (cs_box s) b' r RC K) as (X1 & X2 & _); auto; [rewrite Ev; intros v; apply Hfv; auto|]. split; auto. congruence. }
      destruct X as [X1 X2]. destruct r.
      - rewrite X2. destruct (lit_ctc esub eneg n (bvars b0) f) as [c|] eqn:Ec; cbn [bind]; [|discriminate]. apply IH; auto.
        + destruct (b_eqb _ _); [exact X1|rewrite add_used_box; exact X1].
        + destruct (b_eqb _ _); [exact X2|rewrite add_used_box; exact X2].
        + apply Forall_app. split; auto. constructor; auto. split; [eapply Hlit; eauto|eapply lit_plain; eauto].
      - destruct (b_empty b'); [discriminate|]. apply IH; auto; rewrite add_used_box; auto.
      - apply IH; auto.
    Qed.

    (** *** Bisection *)
    Definition int_tight (b : box) : Prop := forall i v, nth_error (bvars b) i = Some v -> is_int_type (vty v) = true -> has_int (b_get b i).
    Lemma bisect_good mid b d l r : mid_ok mid -> box_ok b -> int_range b -> good b -> int_tight b -> b_bisect mid b d = Some (l, r) -> good l \/ good r.
    Proof.
      intros Hm K HR G T E1. destruct (b_bisect_inv _ _ _ _ _ E1) as (v & lo & hi & x & y & Ev & Eg & Hb & -> & -> & Hc).
      pose proof (box_ok_get b d K) as Kd. rewrite Eg in Kd.
      assert (Gs : forall t z, (V v = true -> t = rho v) -> imem t z -> good (b_set b d z)).
      { intros t z Ht Hz. split; [apply b_set_full; [apply G|eapply imem_nonempty; eauto]|].
        intros j w Hj Hw. cbn [b_set bvars] in Hj. destruct (Nat.eq_dec d j) as [<-|N]; [|rewrite b_get_set_ne by auto; apply G; auto].
        rewrite b_get_set_eq by (eapply box_ok_len; eauto). rewrite Ev in Hj. injection Hj as <-. rewrite <- (Ht Hw). exact Hz. }
      destruct Hc as [[Tv Hc]|[Tv Hc]].
      - destruct (bisect_cont_spec mid Hm lo hi x y Kd Hb Hc) as (A & _).
        assert (X : exists t, (V v = true -> t = rho v) /\ imem t (IV lo hi)).
        { destruct (V v) eqn:EV; [exists (rho v); split; auto; rewrite <- Eg; apply G; auto|]. destruct (i_ok_member (IV lo hi) Kd eq_refl) as [t Ht]. exists t. split; [discriminate|auto]. }
        destruct X as (t & X1 & X2). apply A in X2. destruct X2 as [X2|X2]; [left|right]; eapply Gs; eauto.
      - assert (Ti : is_int_type (vty v) = true) by (destruct Tv as [-> | ->]; reflexivity).
        destruct (bisect_int_spec mid Hm lo hi x y Kd Hb Hc) as (_ & A & _).
        assert (X : exists t, (V v = true -> t = rho v) /\ isint t /\ imem t (IV lo hi)).
        { destruct (V v) eqn:EV.
          - exists (rho v). split; auto. split; [apply int_type_isint with v; auto; apply Hwt|]. rewrite <- Eg. apply G; auto.
          - destruct (T d v Ev Ti) as [z Hz]. exists (IZR z). split; [discriminate|]. split; [exists z; auto|]. rewrite <- Eg. exact Hz. }
        destruct X as (t & X1 & X2 & X3). apply A in X3; auto.
        + destruct X3 as [X3|X3]; [left|right]; eapply Gs; eauto.
        + apply (HR d v); auto. rewrite Eg. destruct (Hm lo hi Kd) as (F & H1 & H2). cbn [imem]. apply dle_true in H1. apply dle_true in H2. rewrite (finite_d2e _ F) in H1, H2. auto.
    Qed.

    (** *** The built contractor *)
    Lemma int_tight_int s s' k : box_ok (cs_box s) -> bvars (cs_box s) = bvars b0 -> good (cs_box s) ->
      prune Orc term k (CInteger (int_indexes (bvars b0))) s = Some s' -> R s' -> int_tight (cs_box s').
    Proof.
      intros K Ev G. destruct k as [|k]; [discriminate|]. cbn [prune]. intros [= <-] HR i v Hi Ht.
      assert (Hidx : forall i, In i (int_indexes (bvars b0)) -> exists v, nth_error (bvars (cs_box s)) i = Some v /\ is_int_type (vty v) = true).
      { rewrite Ev. intros j Hj. unfold int_indexes in Hj. apply filter_In in Hj. destruct Hj as [_ Hj]. destruct (nth_error (bvars b0) j) as [w|]; [eauto|discriminate]. }
      assert (Ev' : bvars (cs_box (prune_int (int_indexes (bvars b0)) s)) = bvars (cs_box s)) by (apply (k_vars (fun _ => True)); apply prune_int_keeps; auto).
      destruct (int_good U W rho Hwt (int_indexes (bvars b0)) s [] K G Hidx) as (_ & _ & X); auto; [intros j []|]. apply X. cbn [app].
      unfold int_indexes. rewrite Ev', Ev in Hi. apply filter_In. split; [apply in_seq; assert (i < length (bvars b0)) by (apply nth_error_Some; congruence); lia|]. rewrite Hi. exact Ht.
    Qed.
    Lemma flatten_okc cs : Forall (fun c => c_ok M D Orc (bvars b0) c /\ c_plain c) cs -> Forall (fun c => c_ok M D Orc (bvars b0) c /\ c_plain c) (c_flatten cs).
    Proof.
      intros F. apply Forall_forall. intros c Hc. unfold c_flatten in Hc. apply in_flat_map in Hc. destruct Hc as (d & Hd & Hc). rewrite Forall_forall in F. specialize (F d Hd).
      destruct d; cbn in Hc; try (destruct Hc as [<-|[]]; exact F); try contradiction. cbn [c_ok c_plain] in F. destruct F as [F1 F2].
      pose proof (ok_plain_list M D Orc (bvars b0) cs0 F1 F2) as F3. rewrite Forall_forall in F3. auto.
    Qed.
    Definition no_ints (b : box) : Prop := forall v, In v (bvars b) -> is_int_type (vty v) = false.
    Lemma mk_integer_vars b : bvars b = bvars b0 -> (mk_integer b = CInteger (int_indexes (bvars b0))) \/ (mk_integer b = CId /\ no_ints b0).
    Proof.
      intros Ev. unfold mk_integer. destruct (existsb _ (bvars b)) eqn:Ex; [left; rewrite Ev; auto|right]. split; auto. intros v Hv.
      destruct (is_int_type (vty v)) eqn:T; auto. rewrite <- Ex. symmetry. apply existsb_exists. exists v. rewrite Ev. auto.
    Qed.
    Definition built (wl : bool) (c : contractor) : Prop := c_ok M D Orc (bvars b0) c /\ c_plain c /\
      (no_ints b0 \/ (wl = false /\ (c = CInteger (int_indexes (bvars b0)) \/ exists cs, c = CFix (cs ++ [CInteger (int_indexes (bvars b0))])))).
    Lemma mk_built wl l b : bvars b = bvars b0 -> Forall (fun c => c_ok M D Orc (bvars b0) c /\ c_plain c) l -> (wl = true -> no_ints b0) ->
      built wl (if wl then mk_work (l ++ [mk_integer b]) else mk_fix (l ++ [mk_integer b])).
    Proof.
      intros Ev F Hwl. assert (Fi : c_ok M D Orc (bvars b0) (mk_integer b) /\ c_plain (mk_integer b)).
      { split; [rewrite <- Ev; apply mk_integer_ok|]. destruct (mk_integer_vars b Ev) as [->|[-> _]]; exact I. }
      assert (F' : Forall (fun c => c_ok M D Orc (bvars b0) c /\ c_plain c) (c_flatten (l ++ [mk_integer b]))) by (apply flatten_okc, Forall_app; auto).
      assert (C : forall l', Forall (fun c => c_ok M D Orc (bvars b0) c /\ c_plain c) l' ->
         (c_ok M D Orc (bvars b0) (CFix l') /\ c_plain (CFix l')) /\ (c_ok M D Orc (bvars b0) (CWork l') /\ c_plain (CWork l'))).
      { intros l' H. cbn [c_ok c_plain]. assert (X : fold_right (fun c' acc => c_ok M D Orc (bvars b0) c' /\ acc) True l' /\ fold_right (fun c' acc => c_plain c' /\ acc) True l').
        { induction H as [|c l' [H1 H2] H IH]; cbn [fold_right]; auto. tauto. } tauto. }
      unfold built. destruct wl.
      - split; [|split; [|left; auto]]; unfold mk_work; destruct (c_flatten (l ++ [mk_integer b])) as [|c0 l0] eqn:El; try exact I; rewrite <- El in *; rewrite El; apply C; rewrite <- El; exact F'.
      - assert (Ok : c_ok M D Orc (bvars b0) (mk_fix (l ++ [mk_integer b])) /\ c_plain (mk_fix (l ++ [mk_integer b]))).
        { unfold mk_fix. destruct (c_flatten (l ++ [mk_integer b])) as [|c0 l0] eqn:El; [split; exact I|]. apply C. exact F'. }
        destruct Ok as [O1 O2]. split; auto. split; auto. destruct (mk_integer_vars b Ev) as [Ei|[Ei Ni]]; [right|left; auto]. split; auto. right.
        exists (c_flatten l). unfold mk_fix. replace (c_flatten (l ++ [mk_integer b])) with (c_flatten l ++ [CInteger (int_indexes (bvars b0))]) by (unfold c_flatten; rewrite flat_map_app, Ei; reflexivity).
        destruct (c_flatten l); reflexivity.
    Qed.
    Lemma built_good wl c k s s' : built wl c -> box_ok (cs_box s) -> bvars (cs_box s) = bvars b0 -> good (cs_box s) -> prune Orc term k c s = Some s' -> R s' ->
      b_empty (cs_box s') = false /\ good (cs_box s') /\ int_tight (cs_box s').
    Proof.
      intros (A & B & T) K Ev G E1 HR. assert (G' : good (cs_box s')) by (eapply (prune_good M D Orc term U W rho Hwt Hsol k (bvars b0)); eauto).
      assert (S : keeps (c_sem M D c) s s') by (eapply prune_keeps; eauto; rewrite Ev; auto).
      split; [apply full_nonempty; [apply S|apply G']|]. split; auto.
      destruct T as [T|(_ & [->|(cs & ->)])].
      - intros i v Hi Ht. rewrite (k_vars _ _ _ S), Ev in Hi. rewrite (T v (nth_error_In _ _ Hi)) in Ht. discriminate.
      - eapply int_tight_int; eauto.
      - destruct k as [|k]; [discriminate|]. cbn [prune] in E1. cbn [c_ok c_plain] in A, B.
        refine (fix_loop_last M D Orc term U W rho (prune Orc term k) (bvars b0) _ _ k cs (CInteger (int_indexes (bvars b0))) int_tight _ s s' K Ev (ok_plain_list M D Orc _ _ A B) G E1 HR).
        + intros c0 s0 s0' K0 E0 H0 P0. eapply prune_keeps; eauto. rewrite E0; auto.
        + intros c0 s0 s0' K0 E0 H0 P0 G0 X0 R0. eapply (prune_good M D Orc term U W rho Hwt Hsol k (bvars b0)); eauto.
        + intros s0 s0' K0 E0 G0 X0 R0. eapply int_tight_int; eauto.
    Qed.

    (** *** The search *)
    Variable ev : formula -> box -> option (etype * ival).
    Hypothesis Hev : forall f, In f fs -> evaluator_local M D ev f (bvars b0).
    Variable mid : dbl -> dbl -> dbl.
    Hypothesis Hmid : mid_ok mid.
    Hypothesis HR0 : int_range b0.
    Variable precision : dbl.
    Definition G' (b : box) : Prop := good b /\ int_tight b.
    Lemma ok_pr c : c_ok M D Orc (bvars b0) c -> forall s s', okb b0 (cs_box s) -> prune Orc term m c s = Some s' -> okb b0 (cs_box s') /\ (R s' -> R s).
    Proof.
      intros Hc s s' [K S] E1. assert (X : keeps (c_sem M D c) s s') by (eapply prune_keeps; eauto; rewrite (proj1 S); auto).
      split; [split; [apply X|]|intros; eapply R_keeps; eauto]. eapply box_sub_trans; [|exact S]. split; [apply X|apply X].
    Qed.
    Lemma ok_br b act d l r : okb b0 b -> branch_largest mid b act = Some (Some (d, l, r)) -> okb b0 l /\ okb b0 r.
    Proof.
      intros [K S] E1. destruct (branch_largest_sound mid Hmid b act d l r K (int_range_sub _ _ S HR0) E1) as (X1 & X2 & X3 & X4 & _).
      split; split; auto; eapply box_sub_trans; eauto.
    Qed.
    Lemma ev_good s f i : In f fs -> okb b0 (cs_box s) -> G' (cs_box s) -> ev f (cs_box s) = Some (UNSAT, i) -> R (add_used (cs_with_box s (b_set_empty (cs_box s))) f) -> False.
    Proof.
      intros Hf [K S] [G _] E1 HR. assert (Fe : In f E).
      { apply U_wit; [eapply R_used_in; eauto|]. eapply R_used_wit; [|exact HR]. cbn [cs_with_box cs_box]. unfold b_empty, b_set_empty. cbn [bvals]. destruct (bvals (cs_box s)); reflexivity. }
      destruct (complete U W rho (cs_box s) K G) as (rho' & A & B).
      assert (A' : forall v, In v (fvF f) -> rho v = rho' v) by (intros w Hw; symmetry; apply A; eapply V_fv; eauto).
      apply (Hev f Hf (cs_box s) i rho'); auto; [apply (proj1 S)| |].
      - intros v Hv. rewrite <- (A' v Hv). apply Hwt.
      - apply (solves_agree M D f rho rho' A' (Hsol f Fe)).
    Qed.
    Lemma br_good b act d l r : okb b0 b -> G' b -> branch_largest mid b act = Some (Some (d, l, r)) -> good l \/ good r.
    Proof.
      intros [K S] [G T] E1. apply branch_largest_some in E1. destruct E1 as [E1 _]. apply (bisect_good mid b d l r); auto. eapply int_range_sub; eauto.
    Qed.
    Lemma seq_search_good wl c k lf s s' : built wl c -> okb b0 (cs_box s) -> good (cs_box s) ->
      search_seq Orc term m ev mid precision k lf fs c s = Some (false, s') -> R s' -> False.
    Proof.
      intros Hb K G. unfold search_seq, icp_seq. intros E1 HR.
      assert (X : ~ Exists (fun p : box * option nat => good (fst p)) [(cs_box s, None)]); [|apply X; constructor; exact G].
      refine (loop_good (prune Orc term m c) ev (branch_largest mid) precision fs (okb b0) good G' R (R_same U W) (R_used U W) _ _ _ _ _ _ k _ lf s s' _ E1 HR).
      - intros t t' Kt Et Rt. apply (ok_pr c (proj1 Hb) t t' Kt Et). exact Rt.
      - intros t t' Kt Et. apply (ok_pr c (proj1 Hb) t t' Kt Et).
      - apply ok_br.
      - intros t t' Kt Gt Et Rt. destruct (built_good wl c m t t' Hb (proj1 Kt) (proj1 (proj2 Kt)) Gt Et Rt) as (X1 & X2 & X3). split; auto. split; auto.
      - apply ev_good.
      - apply br_good.
      - constructor; [exact K|constructor].
    Qed.
    Lemma par_search_good wl c jobs sched lf s s' : jobs <> 0 -> built wl c -> okb b0 (cs_box s) -> good (cs_box s) ->
      search_par Orc term m ev mid precision lf jobs sched fs c s = Some (false, s') -> R s' -> False.
    Proof.
      intros J Hb K G. unfold search_par. intros E1 HR.
      refine (par_good (prune Orc term m c) ev mid precision fs (okb b0) good G' R (R_same U W) (R_used U W) _ _ _ _ _ _ _ (R_join U W) lf jobs sched s s' J K G E1 HR).
      - intros t t' Kt Et Rt. apply (ok_pr c (proj1 Hb) t t' Kt Et). exact Rt.
      - intros t t' Kt Et. apply (ok_pr c (proj1 Hb) t t' Kt Et).
      - apply ok_br.
      - intros t t' Kt Gt Et Rt. destruct (built_good wl c m t t' Hb (proj1 Kt) (proj1 (proj2 Kt)) Gt Et Rt) as (X1 & X2 & X3). split; auto. split; auto.
      - apply ev_good.
      - apply br_good.
      - intros b [X _]. exact X.
    Qed.
  End Fixed.

  Lemma good_start U W rho : box_ok b0 -> in_box rho b0 -> good U W rho b0.
  Proof. intros K I. split; [eapply in_box_full; eauto|]. intros i v Hi _. apply I; auto. Qed.

  (** The theory solver with a search that never loses a good box. *)
  Definition search_good (wl : bool) (search : contractor -> cstat -> option (bool * cstat)) : Prop :=
    forall c s r s', built wl c -> okb b0 (cs_box s) -> search c s = Some (r, s') -> b_empty (cs_box s') = true ->
      forall U W rho, incl (explanation W U) fs -> well_typed rho -> (forall f, In f (explanation W U) -> gap_free f rho) ->
        (forall f, In f (explanation W U) -> solves M D f rho) -> R U W s' -> R U W s /\ ~ good U W rho (cs_box s).
  Lemma R_self s : R (cs_used s) (cs_wit s) s.
  Proof. split; apply incl_refl. Qed.
  Theorem theory_unsat wl search E rho : box_ok b0 -> (wl = true -> no_ints b0) -> search_good wl search ->
    theory_check esub eneg n wl false search b0 fs = Some (TUnsat E) -> incl E fs ->
    well_typed rho -> in_box rho b0 -> (forall f, In f E -> gap_free f rho) -> ~ (forall f, In f E -> solves M D f rho).
  Proof.
    intros K Hwl Hs E1 HE Hwt HB Hgap Hsol. unfold theory_check in E1.
    destruct (build_contractor esub eneg n wl false fs (cs_new b0 None)) as [[s o]|] eqn:Eb; cbn [bind] in E1; [|discriminate].
    pose proof (good_start) as GS.
    assert (Bi : forall b, bvars b = bvars b0 -> built wl (mk_integer b)).
    { intros b Ev. unfold built. split; [rewrite <- Ev; apply mk_integer_ok|]. destruct (mk_integer_vars b Ev) as [-> |[-> N]]; split; try exact I; auto.
      destruct wl; auto. }
    unfold build_contractor in Eb. remember fs as l0 eqn:Ef in Eb. destruct l0 as [|f0 fs0].
    - injection Eb as <- <-. match type of E1 with context [search ?c ?s] => destruct (search c s) as [[r s']|] eqn:Es end; cbn [bind snd] in E1; [|discriminate].
      destruct (b_empty (cs_box s')) eqn:Em; [|discriminate]. injection E1 as <-.
      destruct (Hs _ (cs_new b0 None) _ _ (Bi b0 eq_refl) (conj K (box_sub_refl b0)) Es Em (cs_used s') (cs_wit s') rho HE Hwt Hgap Hsol (R_self s')) as [_ X]. apply X. apply GS; auto.
    - rewrite Ef in Eb. clear f0 fs0 Ef. destruct (build_loop esub eneg n fs (cs_new b0 None) []) as [[s1 ol]|] eqn:El; cbn [bind] in Eb; [|discriminate].
      destruct ol as [l|].
      + injection Eb as <- <-. set (c := if wl then _ else _) in *. destruct (search c s1) as [[r s']|] eqn:Es; cbn [bind snd] in E1; [|discriminate].
        destruct (b_empty (cs_box s')) eqn:Em; [|discriminate]. injection E1 as <-.
        assert (Kb : okb b0 (cs_box s1) ).
        { clear -RC Hfv Hfin K El. assert (X : forall l, incl l fs -> forall s acc s' o, okb b0 (cs_box s) -> build_loop esub eneg n l s acc = Some (s', o) -> okb b0 (cs_box s')).
          { clear l El. induction l as [|f l IH]; intros Hl s acc s' o Ks; cbn [build_loop]; [intros [= <- _]; auto|].
            assert (Hf : In f fs) by (apply Hl; left; auto). assert (Hl' : incl l fs) by (intros x Hx; apply Hl; right; auto).
            destruct (filter_assertion f (cs_box s)) as [[r b']|] eqn:Ef; cbn [bind]; [|discriminate].
            assert (X : okb b0 b'). { destruct Ks as [Ks1 Ks2]. destruct (filter_sub M f (cs_box s) r b' RC Ks1) as (X1 & X2); auto; [rewrite (proj1 Ks2); intros v; apply Hfv; auto|]. split; [exact X1|]. eapply box_sub_trans; eauto. }
            destruct r.
            - destruct (lit_ctc esub eneg n (bvars b') f); cbn [bind]; [|discriminate]. apply IH; auto. destruct (b_eqb _ _); [exact X|rewrite add_used_box; exact X].
            - destruct (b_empty b'); [|apply IH; auto; rewrite add_used_box; exact X]. intros [= <- _].
              destruct (fold_witness_same (fvF f) (add_used (cs_with_box s b') f)) as (-> & _). rewrite add_used_box. exact X.
            - apply IH; auto. }
          apply (X fs (incl_refl _) (cs_new b0 None) [] s1 (Some l)); auto. split; auto. apply box_sub_refl. }
        assert (Bc : built wl c).
        { subst c. apply mk_built; auto; [apply (proj2 Kb)|]. apply (build_loop_ctcs fs (incl_refl _) (cs_new b0 None) [] s1); auto. }
        destruct (Hs _ _ _ _ Bc Kb Es Em (cs_used s') (cs_wit s') rho HE Hwt Hgap Hsol (R_self s')) as [Y X]. apply X.
        destruct (build_loop_good (cs_used s') (cs_wit s') rho Hgap Hsol fs (incl_refl _) (cs_new b0 None) [] s1 (Some l)) as (_ & G & _); auto.
      + injection Eb as <- <-. injection E1 as <-.
        destruct (build_loop_good (cs_used s1) (cs_wit s1) rho Hgap Hsol fs (incl_refl _) (cs_new b0 None) [] s1 None) as (X & _); auto. apply R_self.
  Qed.

  Variable ev : formula -> box -> option (etype * ival).
  Hypothesis Hev : forall f, In f fs -> evaluator_local M D ev f (bvars b0).
  Variable mid : dbl -> dbl -> dbl.
  Hypothesis Hmid : mid_ok mid.
  Hypothesis HR0 : int_range b0.
  Variable precision : dbl.
  Lemma seq_search_ok wl k lf : search_good wl (search_seq Orc term m ev mid precision k lf fs).
  Proof.
    intros c s r s' Hb K Es Em U W rho HE Hwt Hgap Hsol HR.
    assert (Kp : forall t t', okb b0 (cs_box t) -> prune Orc term m c t = Some t' -> okb b0 (cs_box t')) by (intros t t' Kt Et; apply (ok_pr U W c (proj1 Hb) t t' Kt Et)).
    assert (Ks : Forall (fun p : box * option nat => okb b0 (fst p)) [(cs_box s, None)]) by (constructor; [exact K|constructor]).
    destruct r.
    - exfalso. destruct (loop_accept (prune Orc term m c) ev (branch_largest mid) precision fs (okb b0) Kp (ok_br mid Hmid HR0) k _ lf s s' Ks Es) as (_ & (X & _) & _). congruence.
    - split.
      + refine (loop_R (prune Orc term m c) ev (branch_largest mid) precision fs (okb b0) (R U W) (R_same U W) (R_used U W) _ Kp (ok_br mid Hmid HR0) k _ lf s false s' Ks Es HR).
        intros t t' Kt Et Rt. apply (ok_pr U W c (proj1 Hb) t t' Kt Et). exact Rt.
      + intros G. exact (seq_search_good U W rho Hwt Hsol ev Hev mid Hmid HR0 precision wl c k lf s s' Hb K G Es HR).
  Qed.
  Lemma par_search_ok wl lf jobs sched : jobs <> 0 -> search_good wl (search_par Orc term m ev mid precision lf jobs sched fs).
  Proof.
    intros J c s r s' Hb K Es Em U W rho HE Hwt Hgap Hsol HR.
    assert (Kp : forall t t', okb b0 (cs_box t) -> prune Orc term m c t = Some t' -> okb b0 (cs_box t')) by (intros t t' Kt Et; apply (ok_pr U W c (proj1 Hb) t t' Kt Et)).
    destruct r.
    - exfalso. destruct (par_accept (prune Orc term m c) ev mid precision fs (okb b0) Kp (ok_br mid Hmid HR0) lf jobs sched s s' K Es) as (_ & t & Et & X & _). congruence.
    - split.
      + refine (par_R (prune Orc term m c) ev mid precision fs (okb b0) (R U W) (R_same U W) _ (R_join U W) lf jobs sched s s' K Es HR).
        intros t t' Kt Et Rt. apply (ok_pr U W c (proj1 Hb) t t' Kt Et). exact Rt.
      + intros G. exact (par_search_good U W rho Hwt Hsol ev Hev mid Hmid HR0 precision wl c jobs sched lf s s' J Hb K G Es HR).
  Qed.
  Lemma seq_search_used k lf c s r s' : incl (c_forms c) fs -> Q fs s -> search_seq Orc term m ev mid precision k lf fs c s = Some (r, s') -> Q fs s'.
  Proof.
    intros Hc HQ. unfold search_seq, icp_seq. intros Es.
    refine (Q_loop fs (prune Orc term m c) ev precision fs (incl_refl _) _ (branch_largest mid) k _ lf s r s' HQ Es).
    intros t t' Ht Et. exact (Q_prune fs Orc term m c t t' Hc Ht Et).
  Qed.
  Lemma par_search_used lf jobs sched c s r s' : incl (c_forms c) fs -> Q fs s -> search_par Orc term m ev mid precision lf jobs sched fs c s = Some (r, s') -> Q fs s'.
  Proof.
    intros Hc HQ. unfold search_par. intros Es.
    refine (Q_par fs (prune Orc term m c) ev precision fs (incl_refl _) _ mid lf jobs sched s r s' HQ Es).
    intros t t' Ht Et. exact (Q_prune fs Orc term m c t t' Hc Ht Et).
  Qed.
  Theorem theory_seq wl k lf E : box_ok b0 -> (wl = true -> no_ints b0) ->
    theory_check esub eneg n wl false (search_seq Orc term m ev mid precision k lf fs) b0 fs = Some (TUnsat E) ->
    incl E fs /\ forall rho, well_typed rho -> in_box rho b0 -> (forall f, In f E -> gap_free f rho) -> ~ (forall f, In f E -> solves M D f rho).
  Proof.
    intros K Hwl Et. assert (HE : incl E fs) by (eapply theory_used; [|exact Et]; apply seq_search_used). split; auto.
    intros rho. apply (theory_unsat wl _ E rho K Hwl (seq_search_ok wl k lf) Et HE).
  Qed.
  Theorem theory_par wl lf jobs sched E : jobs <> 0 -> box_ok b0 -> (wl = true -> no_ints b0) ->
    theory_check esub eneg n wl false (search_par Orc term m ev mid precision lf jobs sched fs) b0 fs = Some (TUnsat E) ->
    incl E fs /\ forall rho, well_typed rho -> in_box rho b0 -> (forall f, In f E -> gap_free f rho) -> ~ (forall f, In f E -> solves M D f rho).
  Proof.
    intros J K Hwl Et. assert (HE : incl E fs) by (eapply theory_used; [|exact Et]; apply par_search_used). split; auto.
    intros rho. apply (theory_unsat wl _ E rho K Hwl (par_search_ok wl lf jobs sched J) Et HE).
  Qed.
End Top.

(** The components of the real solver meet the hypotheses. *)
Lemma evaluator_local_of M D A esub f vars : ia_ok M D A -> rc_ok M -> (forall v, In v (fvF f) -> In v vars) ->
  (forall e1 e2, lit_sides f = Some (e1, e2) -> esub_faithful M D esub e1 e2) -> evaluator_local M D (rel_eval A esub) f vars.
Proof.
  intros HA HM HV HE b i rho K Ev E W HB [Df Hf]. subst vars. destruct (rel_eval_sound M D A esub HA HM f b UNSAT i K HV HE E) as [_ X].
  destruct (X rho HB Df) as (_ & Y & _). apply Y; auto.
Qed.
Lemma lit_ctc_ok M D L esub eneg n fa vars f c : ibex_ok M D L -> eneg_faithful M D eneg -> sqrt_ok M D ->
  (forall v, In v (fvF f) -> In v vars) -> (is_forall f = false -> side_ok M D esub f) ->
  (is_forall f = true -> fa_ok M D (ibex_oracles L esub eneg n fa) f vars) ->
  lit_ctc esub eneg n vars f = Some c -> c_ok M D (ibex_oracles L esub eneg n fa) vars c.
Proof.
  intros HL Hn Hq Hv Hs Hf. unfold lit_ctc. destruct (is_forall f).
  - intros [= <-]. cbn. auto.
  - intros E. apply (mk_fwd_good M D L esub eneg n fa HL Hn Hq vars f c (Hs eq_refl) Hv E).
Qed.
