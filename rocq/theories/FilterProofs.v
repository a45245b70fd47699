From Coq Require Import ZArith Reals Lra Lia List Bool Classical.
From Flocq Require Import Core.Core IEEE754.BinarySingleNaN.
From Verif Require Import Dbl DblProofs Syntax Sem SemProofs Interval IntervalProofs MathConv MathConvProofs IEval IEvalProofs Contr ContrProofs Filter.
Import ListNotations.
Local Open Scope R_scope.

Lemma upd_nth_same {A} i (l : list A) d : upd_nth i (nth i l d) l = l.
Proof. revert i. induction l as [|x l IH]; intros [|i]; cbn [upd_nth nth]; auto. f_equal. apply IH. Qed.
Lemma b_set_same b i : b_set b i (b_get b i) = b.
Proof. unfold b_set, b_get. rewrite upd_nth_same. destruct b; reflexivity. Qed.
Lemma b_set_set_empty b i x : b_set_empty (b_set b i x) = b_set_empty b.
Proof. unfold b_set_empty, b_set. cbn [bvars bvals]. f_equal. revert i. induction (bvals b) as [|y l IH]; intros [|i]; cbn [upd_nth map]; auto. f_equal; auto. Qed.

Section Upd.
  Variables (b : box) (v : var) (i : nat).
  Hypothesis K : box_ok b.
  Hypothesis Hi : nth_error (bvars b) i = Some v.
  Lemma idx_v : b_idx0 b v = i.
  Proof.
    unfold b_idx0, b_index. destruct (index_of_In v (bvars b)) as [j J]; [eapply nth_error_In; eauto|]. rewrite J. apply index_of_nth in J.
    destruct K as [N _]. eapply NoDup_nth_error; [exact N| |congruence]. apply nth_error_Some. congruence.
  Qed.
  Lemma getv_v : b_getv b v = b_get b i. Proof. unfold b_getv. rewrite idx_v. reflexivity. Qed.
  Lemma setv_v x : b_setv b v x = b_set b i x. Proof. unfold b_setv. rewrite idx_v. reflexivity. Qed.
  Lemma ki : i_ok (b_get b i). Proof. apply box_ok_get; auto. Qed.

  Lemma narrowed_same (P : R -> Prop) : i_empty (b_get b i) = false -> (forall x, imem x (b_get b i) -> P x) -> narrowed P i b b.
  Proof. intros E H. right. exists (b_get b i). rewrite b_set_same. split; auto. split; [apply ki|]. split; auto. intros x. split; [auto|tauto]. Qed.
  Lemma upd_lb_spec c : is_finite c = true -> narrowed (fun x => B2R c <= x) i b (snd (upd_lb v c b)).
  Proof.
    intros F. unfold upd_lb. rewrite getv_v, setv_v. pose proof ki as Ki. destruct (b_get b i) as [|l u] eqn:Eg; cbn [ilb iub].
    - replace (dle c dnan) with false by (destruct c as [|[]| |]; reflexivity). cbn [snd]. left. split; auto. rewrite Eg. intros x [].
    - destruct (i_ok_nan _ _ Ki) as [Nl Nu]. pose proof (fin_nan _ F) as Nc. destruct (dle c l) eqn:E1.
      + cbn [snd]. apply narrowed_same; rewrite Eg; auto. intros x [H _]. apply dle_true in E1. rewrite (finite_d2e _ F) in E1.
        exact (ext_le_trans _ _ _ E1 H).
      + destruct (dle c u) eqn:E2; cbn [snd].
        * right. exists (mk_ival c u). split; auto. apply dle_false in E1; auto.
          assert (Em : mk_ival c u = IV c u). { unfold mk_ival. rewrite E2. destruct Ki as (_ & _ & ->). destruct c as [|[]| |]; try discriminate; reflexivity. }
          assert (Ko : i_ok (mk_ival c u)) by apply mk_ival_ok. split; auto. rewrite Em. split; auto. intros x. rewrite Eg. cbn [imem]. rewrite (finite_d2e _ F) in *. cbn [ext_le].
          split; [|tauto]. intros [A B]. split; [split; auto|auto]. eapply ext_le_trans; [apply ext_lt_le; exact E1|exact A].
        * left. split; auto. rewrite Eg. intros x [_ H] C. apply dle_false in E2; auto. rewrite (finite_d2e _ F) in E2. apply E2. exact (ext_le_trans (Fin (B2R c)) (Fin x) _ C H).
  Qed.
  Lemma upd_ub_spec c : is_finite c = true -> narrowed (fun x => x <= B2R c) i b (snd (upd_ub v c b)).
  Proof.
    intros F. unfold upd_ub. rewrite getv_v, setv_v. pose proof ki as Ki. destruct (b_get b i) as [|l u] eqn:Eg; cbn [ilb iub].
    - replace (dge c dnan) with false by (destruct c as [|[]| |]; reflexivity). cbn [snd]. left. split; auto. rewrite Eg. intros x [].
    - destruct (i_ok_nan _ _ Ki) as [Nl Nu]. pose proof (fin_nan _ F) as Nc. unfold dge. change (Bleb u c) with (dle u c). change (Bleb l c) with (dle l c). destruct (dle u c) eqn:E1.
      + cbn [snd]. apply narrowed_same; rewrite Eg; auto. intros x [_ H]. apply dle_true in E1. rewrite (finite_d2e _ F) in E1.
        exact (ext_le_trans _ _ _ H E1).
      + destruct (dle l c) eqn:E2; cbn [snd].
        * right. exists (mk_ival l c). split; auto. apply dle_false in E1; auto.
          assert (Em : mk_ival l c = IV l c). { unfold mk_ival. rewrite E2. destruct Ki as (_ & -> & _). destruct c as [|[]| |]; try discriminate; reflexivity. }
          assert (Ko : i_ok (mk_ival l c)) by apply mk_ival_ok. split; auto. rewrite Em. split; auto. intros x. rewrite Eg. cbn [imem]. rewrite (finite_d2e _ F) in *. cbn [ext_le].
          split; [|tauto]. intros [A B]. split; [split; auto|auto]. exact (ext_le_trans (Fin x) (Fin (B2R c)) _ B (ext_lt_le _ _ E1)).
        * left. split; auto. rewrite Eg. intros x [H _] C. apply dle_false in E2; auto. rewrite (finite_d2e _ F) in E2. apply E2. exact (ext_le_trans _ (Fin x) (Fin (B2R c)) H C).
  Qed.
  Lemma upd_eq_spec c : is_finite c = true -> narrowed (fun x => x = B2R c) i b (snd (upd_eq v c b)).
  Proof.
    intros F. unfold upd_eq. rewrite getv_v, setv_v. pose proof ki as Ki. destruct (b_get b i) as [|l u] eqn:Eg; cbn [ilb iub i_contains].
    - cbn [deq Beqb SpecFloat.SFeqb SpecFloat.SFcompare B2SF dnan andb snd]. left. split; auto. rewrite Eg. intros x [].
    - destruct (i_ok_nan _ _ Ki) as [Nl Nu]. pose proof (fin_nan _ F) as Nc. destruct (deq l u && deq l c) eqn:E1.
      + apply andb_true_iff in E1. destruct E1 as [E1 E2]. apply deq_true in E1. apply deq_true in E2. rewrite (finite_d2e _ F) in E2.
        cbn [snd]. apply narrowed_same; rewrite Eg; auto. intros x [A B]. rewrite <- E1, E2 in B. rewrite E2 in A. cbn [ext_le] in *. lra.
      + destruct (dle l c && dle c u) eqn:E2; cbn [snd].
        * apply andb_true_iff in E2. destruct E2 as [E2 E3]. right. exists (i_point c). split; auto.
          assert (Em : i_point c = IV c c). { unfold i_point, mk_ival. assert (R : dle c c = true) by (apply dle_spec; auto; apply ext_le_refl). rewrite R. destruct c as [|[]| |]; try discriminate; reflexivity. }
          split; [apply mk_ival_ok|]. rewrite Em. split; auto. intros x. rewrite Eg. apply dle_true in E2. apply dle_true in E3. cbn [imem]. rewrite (finite_d2e _ F) in *. cbn [ext_le].
          split; [intros H; assert (x = B2R c) by lra; subst; auto|intros [_ ->]; lra].
        * left. split; auto. rewrite Eg. intros x [A B] ->. rewrite <- (finite_d2e _ F) in A, B. apply dle_spec in A; auto. apply dle_spec in B; auto. rewrite A, B in E2. discriminate.
  Qed.
  Lemma upd_eq2_spec lo hi : is_finite lo = true -> is_finite hi = true -> dle lo hi = true -> narrowed (fun x => B2R lo <= x <= B2R hi) i b (snd (upd_eq2 v lo hi b)).
  Proof.
    intros F1 F2 L. unfold upd_eq2. rewrite getv_v, setv_v. pose proof ki as Ki.
    assert (Em : mk_ival lo hi = IV lo hi). { unfold mk_ival. rewrite L. destruct lo as [|[]| |], hi as [|[]| |]; try discriminate; reflexivity. }
    assert (Kj : i_ok (mk_ival lo hi)) by apply mk_ival_ok.
    assert (Hj : forall x, imem x (mk_ival lo hi) <-> B2R lo <= x <= B2R hi). { intros x. rewrite Em. cbn [imem]. rewrite (finite_d2e _ F1), (finite_d2e _ F2). cbn [ext_le]. tauto. }
    destruct (deq (ilb (b_get b i)) lo && deq (iub (b_get b i)) hi) eqn:E1.
    - apply andb_true_iff in E1. destruct E1 as [E1 E2]. cbn [snd]. destruct (b_get b i) as [|l u] eqn:Eg; [discriminate|]. cbn [ilb iub] in *. apply narrowed_same; rewrite Eg; auto.
      apply deq_true in E1. apply deq_true in E2. intros x. rewrite <- Hj, Em. cbn [imem]. rewrite E1, E2. auto.
    - assert (Hm : forall x, imem x (i_inter (b_get b i) (mk_ival lo hi)) <-> imem x (b_get b i) /\ B2R lo <= x <= B2R hi) by (intros x; rewrite i_inter_mem by auto; rewrite Hj; tauto).
      destruct (i_empty (i_inter (b_get b i) (mk_ival lo hi))) eqn:E2; cbn [snd].
      + left. split; [rewrite b_set_set_empty; auto|]. destruct (i_inter (b_get b i) (mk_ival lo hi)) eqn:E3; [|discriminate]. intros x A B. apply (proj2 (Hm x)). auto.
      + right. eexists. split; [reflexivity|]. split; [apply i_inter_ok|auto].
  Qed.
End Upd.

(** ** nextafter *)
Lemma dmax_fin : is_finite dmax = true. Proof. vm_compute. reflexivity. Qed.
Lemma dmax_R : B2R dmax = bpow radix2 1024 - bpow radix2 971.
Proof.
  unfold dmax, Bmax_float. rewrite B2R_SF2B. change (F2R (Float radix2 (Zpos (2^53-1)) 971) = bpow radix2 (53 + 971) - bpow radix2 971).
  unfold F2R. cbn [Fnum Fexp]. rewrite bpow_plus. change (bpow radix2 53) with (IZR (Zpower_pos 2 53)). replace (Zpower_pos 2 53) with (Zpos (2^53-1) + 1)%Z by (vm_compute; reflexivity). rewrite plus_IZR. ring.
Qed.
Lemma dmax_top c : is_finite c = true -> ext_le (d2e c) (d2e dmax).
Proof.
  intros F. rewrite (finite_d2e _ F), (finite_d2e _ dmax_fin). cbn [ext_le]. rewrite dmax_R. assert (H : Rabs (B2R c) <= bpow radix2 1024 - bpow radix2 971) by exact (abs_B2R_le_emax_minus_prec prec64 emax64 _ c).
  pose proof (Rle_abs (B2R c)). lra.
Qed.
Lemma Bsucc_not_nan c : is_finite c = true -> is_nan (Bsucc c) = false.
Proof.
  intros F. generalize (Bsucc_correct prec64 emax64 _ _ c F). destruct (Rlt_bool _ _).
  - intros (_ & H & _). apply fin_nan; auto.
  - destruct (Bsucc c); auto. discriminate.
Qed.
Lemma Bpred_not_nan c : is_finite c = true -> is_nan (Bpred c) = false.
Proof.
  intros F. generalize (Bpred_correct prec64 emax64 _ _ c F). destruct (Rlt_bool _ _).
  - intros (_ & H & _). apply fin_nan; auto.
  - destruct (Bpred c); auto. discriminate.
Qed.
Lemma between_fin a b c : is_finite a = true -> is_finite b = true -> is_nan c = false -> ext_le (d2e a) (d2e c) -> ext_le (d2e c) (d2e b) -> is_finite c = true.
Proof. intros Fa Fb N. rewrite (finite_d2e _ Fa), (finite_d2e _ Fb). destruct c as [|[]| |]; auto; try discriminate; cbn; tauto. Qed.
Lemma next_up c : is_finite c = true -> is_finite (dnextafter c dmax) = true /\ ext_le (d2e c) (d2e (dnextafter c dmax)) /\
  (dnextafter c dmax = dmax \/ ext_lt (d2e c) (d2e (dnextafter c dmax))) /\ ext_le (d2e (dnextafter c dmax)) (d2e (Bsucc c)).
Proof.
  intros F. pose proof dmax_fin as Fm. pose proof (fin_nan _ F) as Nc. pose proof (fin_nan _ Fm) as Nm. unfold dnextafter. rewrite Nc, Nm. cbn [orb].
  destruct (deq c dmax) eqn:E.
  - apply deq_true in E. split; auto. rewrite <- E. split; [apply ext_le_refl|]. split; [auto|]. apply ext_lt_le, Bsucc_gt. auto.
  - assert (L : ext_lt (d2e c) (d2e dmax)).
    { intros C. pose proof (ext_le_antisym _ _ (dmax_top c F) C) as X. apply (deq_spec c dmax) in X; auto. congruence. }
    assert (Lt : dlt c dmax = true) by (apply dlt_spec; auto). rewrite Lt. pose proof (Bsucc_gt c F) as G. split; [|split; [apply ext_lt_le; auto|split; [auto|apply ext_le_refl]]].
    apply (between_fin c dmax); auto. apply Bsucc_not_nan; auto. apply ext_lt_le; auto. apply Bsucc_least; auto.
Qed.
Lemma dmin_fin : is_finite dmin_normal = true. Proof. vm_compute. reflexivity. Qed.
Lemma next_dmin c : is_finite c = true -> is_finite (dnextafter c dmin_normal) = true /\
  (dle c dmin_normal = true -> ext_le (d2e c) (d2e (dnextafter c dmin_normal))) /\
  (dle c dmin_normal = false -> dnextafter c dmin_normal = Bpred c).
Proof.
  intros F. pose proof dmin_fin as Fm. pose proof (fin_nan _ F) as Nc. pose proof (fin_nan _ Fm) as Nm. unfold dnextafter. rewrite Nc, Nm. cbn [orb].
  destruct (deq c dmin_normal) eqn:E.
  - apply deq_true in E. split; auto. rewrite E. split; [intros _; apply ext_le_refl|]. intros C. apply dle_false in C; auto. exfalso. apply C. rewrite E. apply ext_le_refl.
  - destruct (dlt c dmin_normal) eqn:Lt.
    + pose proof Lt as Lt'. apply dlt_spec in Lt'; auto. assert (L : dle c dmin_normal = true) by (apply dle_spec; auto; apply ext_lt_le; auto). rewrite L.
      split; [|split; [intros _; apply ext_lt_le, Bsucc_gt; auto|discriminate]].
      apply (between_fin c dmin_normal); auto. apply Bsucc_not_nan; auto. apply ext_lt_le, Bsucc_gt; auto. apply Bsucc_least; auto.
    + assert (L : dle c dmin_normal = false).
      { destruct (dle c dmin_normal) eqn:L; auto. exfalso. apply dle_true in L. assert (C : ~ ext_lt (d2e c) (d2e dmin_normal)). { intros C. apply dlt_spec in C; auto. congruence. }
        apply C. intros C'. pose proof (ext_le_antisym _ _ L C') as X. apply deq_spec in X; auto. congruence. }
      rewrite L. split; [|split; [discriminate|auto]].
      apply (between_fin dmin_normal c); auto. apply Bpred_not_nan; auto. apply Bpred_greatest; auto. apply dle_false; auto. apply ext_lt_le, Bpred_lt; auto.
Qed.

(** ** Literals *)
Definition lit_holds (M : interp) (f : formula) (pol : bool) (rho : env) : Prop := if pol then holds M f rho else ~ holds M f rho.
Definition only_var (f : formula) (v : var) : Prop := In v (fvF f) /\ forall w, In w (fvF f) -> w = v.

(** What each visitor guarantees of the variable [v] it touched. *)
Definition lit_spec (M : interp) (f : formula) (pol : bool) (b : box) (r : fres) (b' : box) : Prop :=
  exists v i (P : R -> Prop), only_var f v /\ nth_error (bvars b) i = Some v /\ narrowed P i b b' /\
    (forall rho, lit_holds M f pol rho -> gap_free_pol f pol rho -> P (rho v)) /\
    (r <> NotFiltered -> exact_lit f pol -> forall rho, P (rho v) -> lit_holds M f pol rho).

Lemma gt_next_up c x : is_finite c = true -> B2R c < x -> ~ (ext_lt (d2e c) (Fin x) /\ ext_lt (Fin x) (d2e (Bsucc c))) -> B2R (dnextafter c dmax) <= x.
Proof.
  intros F H G. destruct (next_up c F) as (F' & _ & _ & U). rewrite (finite_d2e _ F') in U. assert (E : ~ ext_lt (Fin x) (d2e (Bsucc c))). { intros C. apply G. split; auto. rewrite (finite_d2e _ F). intros C'. cbn [ext_le] in C'. lra. }
  assert (E' : ext_le (d2e (Bsucc c)) (Fin x)) by (apply NNPP; exact E). exact (ext_le_trans (Fin _) _ (Fin x) U E').
Qed.
Lemma next_up_gt c x : is_finite c = true -> dlt c dmax = true -> B2R (dnextafter c dmax) <= x -> B2R c < x.
Proof.
  intros F L H. assert (G : ext_lt (d2e c) (d2e (dnextafter c dmax))).
  { unfold dnextafter. rewrite (fin_nan _ F), (fin_nan _ dmax_fin). cbn [orb]. rewrite L. destruct (deq c dmax) eqn:E; [|apply Bsucc_gt; auto]. apply dlt_spec in L; auto; apply fin_nan; auto. }
  destruct (next_up c F) as (F' & _). rewrite (finite_d2e _ F), (finite_d2e _ F') in G. apply ext_lt_fin in G. lra.
Qed.
Lemma lt_next_dmin c x : is_finite c = true -> x < B2R c -> ~ (ext_lt (d2e (Bpred c)) (Fin x) /\ ext_lt (Fin x) (d2e c)) -> x <= B2R (dnextafter c dmin_normal).
Proof.
  intros F H G. destruct (next_dmin c F) as (F' & A & B). destruct (dle c dmin_normal).
  - specialize (A eq_refl). rewrite (finite_d2e _ F), (finite_d2e _ F') in A. cbn [ext_le] in A. lra.
  - rewrite (B eq_refl) in *. assert (E : ~ ext_lt (d2e (Bpred c)) (Fin x)). { intros C. apply G. split; auto. rewrite (finite_d2e _ F). intros C'. cbn [ext_le] in C'. lra. }
    assert (E' : ext_le (Fin x) (d2e (Bpred c))) by (apply NNPP; exact E). rewrite (finite_d2e _ F') in E'. exact E'.
Qed.
Lemma next_dmin_lt c x : is_finite c = true -> dlt dmin_normal c = true -> x <= B2R (dnextafter c dmin_normal) -> x < B2R c.
Proof.
  intros F L H. destruct (next_dmin c F) as (F' & _ & B). pose proof (fin_nan _ F) as Nc. pose proof (fin_nan _ dmin_fin) as Nm.
  rewrite dlt_dle in L by auto. apply negb_true_iff in L. pose proof (Bpred_lt c F) as G. rewrite <- (B L), (finite_d2e _ F), (finite_d2e _ F') in G. apply ext_lt_fin in G. lra.
Qed.

Section Lits.
  Variables (M : interp) (b : box).
  Hypothesis RC : rc_ok M.
  Hypothesis K : box_ok b.

  Lemma rc_bounds l u : dle l u = true -> is_finite l = true -> is_finite u = true -> B2R l <= i_rc M l u <= B2R u.
  Proof. intros A B C. destruct (RC l u B C A) as [X Y]. rewrite (finite_d2e _ B) in X. rewrite (finite_d2e _ C) in Y. cbn [ext_le] in *. lra. Qed.
  Lemma in_nth v : In v (bvars b) -> exists i, nth_error (bvars b) i = Some v.
  Proof. apply In_nth_error. Qed.

  (** The four visitors over any literal equivalent to [x o c]. *)
  Lemma spec_lb f pol v (lo : dbl) : only_var f v -> In v (bvars b) -> is_finite lo = true ->
    (forall rho, lit_holds M f pol rho -> B2R lo <= rho v) -> (exact_lit f pol -> forall rho, B2R lo <= rho v -> lit_holds M f pol rho) ->
    forall r b', upd_lb v lo b = (r, b') -> lit_spec M f pol b r b'.
  Proof. intros O I F H1 H2. intros r b' E. replace b' with (snd (upd_lb v lo b)) by (rewrite E; auto). destruct (in_nth v I) as [i Hi]. exists v, i, (fun x => B2R lo <= x). split; auto. split; auto. split; [apply upd_lb_spec; auto|]. split; auto. Qed.
  Lemma spec_ub f pol v (lo : dbl) : only_var f v -> In v (bvars b) -> is_finite lo = true ->
    (forall rho, lit_holds M f pol rho -> rho v <= B2R lo) -> (exact_lit f pol -> forall rho, rho v <= B2R lo -> lit_holds M f pol rho) ->
    forall r b', upd_ub v lo b = (r, b') -> lit_spec M f pol b r b'.
  Proof. intros O I F H1 H2. intros r b' E. replace b' with (snd (upd_ub v lo b)) by (rewrite E; auto). destruct (in_nth v I) as [i Hi]. exists v, i, (fun x => x <= B2R lo). split; auto. split; auto. split; [apply upd_ub_spec; auto|]. split; auto. Qed.
  Lemma spec_slb f pol v (lo : dbl) r b' : only_var f v -> In v (bvars b) -> is_finite lo = true ->
    (forall rho, gap_free_pol f pol rho -> vty v = CONTINUOUS -> ~ (ext_lt (d2e lo) (Fin (rho v)) /\ ext_lt (Fin (rho v)) (d2e (Bsucc lo)))) ->
    (forall rho, lit_holds M f pol rho -> B2R lo < rho v) -> (exact_lit f pol -> dlt lo dmax = true /\ forall rho, B2R lo < rho v -> lit_holds M f pol rho) ->
    upd_slb v lo b = Some (r, b') -> lit_spec M f pol b r b'.
  Proof.
    intros O I F G H1 H2 E. destruct (in_nth v I) as [i Hi]. destruct (next_up lo F) as (F' & _). unfold upd_slb in E. destruct (vty v) eqn:Ty; try discriminate; injection E as E.
    - exists v, i, (fun x => B2R (dnextafter lo dmax) <= x). split; auto. split; auto. replace b' with (snd (upd_lb v (dnextafter lo dmax) b)) by (rewrite E; auto). split; [apply upd_lb_spec; auto|].
      split; [intros rho Hl Hg; apply gt_next_up; auto|]. intros _ X rho Hx. destruct (H2 X) as [L H]. apply H. eapply next_up_gt; eauto.
    - exists v, i, (fun x => B2R lo <= x). split; auto. split; auto. subst b'. split; [apply upd_lb_spec; auto|]. split; [intros rho Hl _; apply Rlt_le; auto|]. intros C; congruence.
    - exists v, i, (fun x => B2R lo <= x). split; auto. split; auto. subst b'. split; [apply upd_lb_spec; auto|]. split; [intros rho Hl _; apply Rlt_le; auto|]. intros C; congruence.
  Qed.
  Lemma spec_sub f pol v (lo : dbl) r b' : only_var f v -> In v (bvars b) -> is_finite lo = true ->
    (forall rho, gap_free_pol f pol rho -> vty v = CONTINUOUS -> ~ (ext_lt (d2e (Bpred lo)) (Fin (rho v)) /\ ext_lt (Fin (rho v)) (d2e lo))) ->
    (forall rho, lit_holds M f pol rho -> rho v < B2R lo) -> (exact_lit f pol -> dlt dmin_normal lo = true /\ forall rho, rho v < B2R lo -> lit_holds M f pol rho) ->
    upd_sub v lo b = Some (r, b') -> lit_spec M f pol b r b'.
  Proof.
    intros O I F G H1 H2 E. destruct (in_nth v I) as [i Hi]. destruct (next_dmin lo F) as (F' & _). unfold upd_sub in E. destruct (vty v) eqn:Ty; try discriminate; injection E as E.
    - exists v, i, (fun x => x <= B2R (dnextafter lo dmin_normal)). split; auto. split; auto. replace b' with (snd (upd_ub v (dnextafter lo dmin_normal) b)) by (rewrite E; auto). split; [apply upd_ub_spec; auto|].
      split; [intros rho Hl Hg; apply lt_next_dmin; auto|]. intros _ X rho Hx. destruct (H2 X) as [L H]. apply H. eapply next_dmin_lt; eauto.
    - exists v, i, (fun x => x <= B2R lo). split; auto. split; auto. subst b'. split; [apply upd_ub_spec; auto|]. split; [intros rho Hl _; apply Rlt_le; auto|]. intros C; congruence.
    - exists v, i, (fun x => x <= B2R lo). split; auto. split; auto. subst b'. split; [apply upd_ub_spec; auto|]. split; [intros rho Hl _; apply Rlt_le; auto|]. intros C; congruence.
  Qed.
  Lemma spec_eq f pol v (c : dbl) : only_var f v -> In v (bvars b) -> is_finite c = true ->
    (forall rho, lit_holds M f pol rho <-> rho v = B2R c) -> forall r b', upd_eq v c b = (r, b') -> lit_spec M f pol b r b'.
  Proof. intros O I F H1. intros r b' E. replace b' with (snd (upd_eq v c b)) by (rewrite E; auto). destruct (in_nth v I) as [i Hi]. exists v, i, (fun x => x = B2R c). split; auto. split; auto. split; [apply upd_eq_spec; auto|]. split; intros; apply H1; auto. Qed.
  Lemma spec_eq2 f pol v (l u : dbl) : only_var f v -> In v (bvars b) -> is_finite l = true -> is_finite u = true -> dle l u = true ->
    (forall rho, lit_holds M f pol rho -> rho v = i_rc M l u) -> ~ exact_lit f pol -> forall r b', upd_eq2 v l u b = (r, b') -> lit_spec M f pol b r b'.
  Proof.
    intros O I F1 F2 L H1 X. intros r b' E. replace b' with (snd (upd_eq2 v l u b)) by (rewrite E; auto). destruct (in_nth v I) as [i Hi]. exists v, i, (fun x => B2R l <= x <= B2R u). split; auto. split; auto. split; [apply upd_eq2_spec; auto|].
    split; [|tauto]. intros rho H _. rewrite (H1 rho H). apply rc_bounds; auto.
  Qed.

  (** A literal and its polarity, normalised to the four comparisons. *)
  Definition is_lit (f : formula) (pol : bool) (o : relop) (a c : expr) : Prop :=
    fvF f = fvE a ++ fvE c /\ (forall rho, lit_holds M f pol rho <-> relR o (evalE M a rho) (evalE M c rho)) /\
    lit_kind f pol = Some o /\
    exists o', bound_lit f = bound_lit (FRel o' a c) /\ (match o with REq | RNeq => True | _ => o' <> REq /\ o' <> RNeq end).


  Lemma filt_gt_spec f pol o a c (q : bool) r b' : is_lit f pol o a c -> o = (if q then RGt else RLeq) -> (forall v, In v (fvF f) -> In v (bvars b)) -> finE a /\ finE c ->
    filt_gt a c q b = Some (r, b') -> (r = NotFiltered /\ b' = b) \/ lit_spec M f pol b r b'.
  Proof.
    intros (Lf & Lh & Lk & o' & Lb & Lo) -> Hv Hf E.
    assert (Xs : exact_lit f pol -> forall (v : var) (c : dbl), bound_lit f = Some (o', v, [c]) -> strict_lit f pol = true -> dlt dmin_normal c = true /\ dlt c dmax = true).
    { intros (o1 & v1 & c1 & A & B) v2 c2 A2 S. rewrite A in A2. injection A2 as <- <- <-. auto. }
    unfold strict_lit in Xs. rewrite Lk in Xs.
    assert (Gp : forall (v : var) (cs : list dbl) rho, bound_lit f = Some (o', v, cs) -> strict_lit f pol = true -> gap_free_pol f pol rho -> vty v = CONTINUOUS -> forall c, In c cs ->
      ~ (ext_lt (d2e c) (Fin (rho v)) /\ ext_lt (Fin (rho v)) (d2e (Bsucc c))) /\ ~ (ext_lt (d2e (Bpred c)) (Fin (rho v)) /\ ext_lt (Fin (rho v)) (d2e c))).
    { intros v cs rho A B C. unfold gap_free_pol in C. rewrite A in C. exact (C B). }
    assert (Xr : exact_lit f pol -> forall (v : var) (l u : dbl), bound_lit f = Some (o', v, [l; u]) -> False).
    { intros (o1 & v1 & c1 & A & B) v2 l u A2. rewrite A in A2. discriminate. }
    assert (Ls : q = true -> strict_lit f pol = true) by (unfold strict_lit; rewrite Lk; intros ->; reflexivity).
    unfold filt_gt in E.
    assert (Lo' : match o' with REq | RNeq => False | _ => True end) by (destruct q, o'; cbn in Lo; tauto). clear Lo.
    destruct a as [c1|l1 u1 s1|v1| | | | | |], c as [c2|l2 u2 s2|v2| | | | | |]; try (injection E as <- <-; left; auto; fail); right; cbn [finE] in Hf; destruct Hf as [Hf1 Hf2];
      cbn [fvE app] in Lf; cbn [bound_lit consts_of] in Lb.
    - assert (O : only_var f v2) by (split; rewrite Lf; cbn; [auto|intros ? [|[]]; auto]). assert (I : In v2 (bvars b)) by (apply Hv; apply (proj1 O)).
      destruct q; cbn [relR] in Lh.
      + apply (spec_sub f pol v2 c1 r b' O I Hf1); [intros rho Hg Ht; exact (proj2 (Gp _ _ rho Lb (Ls eq_refl) Hg Ht c1 (or_introl eq_refl)))|intros rho H; apply Lh in H; cbn [evalE] in H; lra| |exact E].
        intros X. destruct (Xs X _ _ Lb eq_refl) as [X1 X2]. split; auto. intros rho H. apply Lh. cbn [evalE]. lra.
      + injection E as E. eapply spec_lb; [exact O|exact I| | | |exact E]; eauto; [intros rho H; apply Lh in H; cbn [evalE] in H; lra|].
        intros X rho H. apply Lh. cbn [evalE]. lra.
    - assert (O : only_var f v2) by (split; rewrite Lf; cbn; [auto|intros ? [|[]]; auto]). assert (I : In v2 (bvars b)) by (apply Hv; apply (proj1 O)).
      destruct Hf1 as (W1 & W2 & W3). pose proof (rc_bounds _ _ W1 W2 W3) as RB.
      destruct q; cbn [relR] in Lh.
      + apply (spec_sub f pol v2 u1 r b' O I W3); [intros rho Hg Ht; exact (proj2 (Gp _ _ rho Lb (Ls eq_refl) Hg Ht u1 (or_intror (or_introl eq_refl))))|intros rho H; apply Lh in H; cbn [evalE] in H; lra| |exact E].
        intros X. exfalso. exact (Xr X _ _ _ Lb).
      + injection E as E. eapply spec_lb; [exact O|exact I| | | |exact E]; eauto; [intros rho H; apply Lh in H; cbn [evalE] in H; lra|].
        intros X. exfalso. exact (Xr X _ _ _ Lb).
    - assert (O : only_var f v1) by (split; rewrite Lf; cbn; [auto|intros ? [|[]]; auto]). assert (I : In v1 (bvars b)) by (apply Hv; apply (proj1 O)).
      destruct q; cbn [relR] in Lh.
      + apply (spec_slb f pol v1 c2 r b' O I Hf2); [intros rho Hg Ht; exact (proj1 (Gp _ _ rho Lb (Ls eq_refl) Hg Ht c2 (or_introl eq_refl)))|intros rho H; apply Lh in H; cbn [evalE] in H; lra| |exact E].
        intros X. destruct (Xs X _ _ Lb eq_refl) as [X1 X2]. split; auto. intros rho H. apply Lh. cbn [evalE]. lra.
      + injection E as E. eapply spec_ub; [exact O|exact I| | | |exact E]; eauto; [intros rho H; apply Lh in H; cbn [evalE] in H; lra|].
        intros X rho H. apply Lh. cbn [evalE]. lra.
    - assert (O : only_var f v1) by (split; rewrite Lf; cbn; [auto|intros ? [|[]]; auto]). assert (I : In v1 (bvars b)) by (apply Hv; apply (proj1 O)).
      destruct Hf2 as (W1 & W2 & W3). pose proof (rc_bounds _ _ W1 W2 W3) as RB.
      destruct q; cbn [relR] in Lh.
      + apply (spec_slb f pol v1 l2 r b' O I W2); [intros rho Hg Ht; exact (proj1 (Gp _ _ rho Lb (Ls eq_refl) Hg Ht l2 (or_introl eq_refl)))|intros rho H; apply Lh in H; cbn [evalE] in H; lra| |exact E].
        intros X. exfalso. exact (Xr X _ _ _ Lb).
      + injection E as E. eapply spec_ub; [exact O|exact I| | | |exact E]; eauto; [intros rho H; apply Lh in H; cbn [evalE] in H; lra|].
        intros X. exfalso. exact (Xr X _ _ _ Lb).
  Qed.

  Lemma filt_geq_spec f pol o a c (q : bool) r b' : is_lit f pol o a c -> o = (if q then RGeq else RLt) -> (forall v, In v (fvF f) -> In v (bvars b)) -> finE a /\ finE c ->
    filt_geq a c q b = Some (r, b') -> (r = NotFiltered /\ b' = b) \/ lit_spec M f pol b r b'.
  Proof.
    intros (Lf & Lh & Lk & o' & Lb & Lo) -> Hv Hf E.
    assert (Xs : exact_lit f pol -> forall (v : var) (c : dbl), bound_lit f = Some (o', v, [c]) -> strict_lit f pol = true -> dlt dmin_normal c = true /\ dlt c dmax = true).
    { intros (o1 & v1 & c1 & A & B) v2 c2 A2 S. rewrite A in A2. injection A2 as <- <- <-. auto. }
    unfold strict_lit in Xs. rewrite Lk in Xs.
    assert (Gp : forall (v : var) (cs : list dbl) rho, bound_lit f = Some (o', v, cs) -> strict_lit f pol = true -> gap_free_pol f pol rho -> vty v = CONTINUOUS -> forall c, In c cs ->
      ~ (ext_lt (d2e c) (Fin (rho v)) /\ ext_lt (Fin (rho v)) (d2e (Bsucc c))) /\ ~ (ext_lt (d2e (Bpred c)) (Fin (rho v)) /\ ext_lt (Fin (rho v)) (d2e c))).
    { intros v cs rho A B C. unfold gap_free_pol in C. rewrite A in C. exact (C B). }
    assert (Xr : exact_lit f pol -> forall (v : var) (l u : dbl), bound_lit f = Some (o', v, [l; u]) -> False).
    { intros (o1 & v1 & c1 & A & B) v2 l u A2. rewrite A in A2. discriminate. }
    assert (Ls : q = false -> strict_lit f pol = true) by (unfold strict_lit; rewrite Lk; intros ->; reflexivity).
    unfold filt_geq in E.
    assert (Lo' : match o' with REq | RNeq => False | _ => True end) by (destruct q, o'; cbn in Lo; tauto). clear Lo.
    destruct a as [c1|l1 u1 s1|v1| | | | | |], c as [c2|l2 u2 s2|v2| | | | | |]; try (injection E as <- <-; left; auto; fail); right; cbn [finE] in Hf; destruct Hf as [Hf1 Hf2];
      cbn [fvE app] in Lf; cbn [bound_lit consts_of] in Lb.
    - assert (O : only_var f v2) by (split; rewrite Lf; cbn; [auto|intros ? [|[]]; auto]). assert (I : In v2 (bvars b)) by (apply Hv; apply (proj1 O)).
      destruct q; cbn [relR] in Lh.
      + injection E as E. eapply spec_ub; [exact O|exact I| | | |exact E]; eauto; [intros rho H; apply Lh in H; cbn [evalE] in H; lra|].
        intros X rho H. apply Lh. cbn [evalE]. lra.
      + apply (spec_slb f pol v2 c1 r b' O I Hf1); [intros rho Hg Ht; exact (proj1 (Gp _ _ rho Lb (Ls eq_refl) Hg Ht c1 (or_introl eq_refl)))|intros rho H; apply Lh in H; cbn [evalE] in H; lra| |exact E].
        intros X. destruct (Xs X _ _ Lb eq_refl) as [X1 X2]. split; auto. intros rho H. apply Lh. cbn [evalE]. lra.
    - assert (O : only_var f v2) by (split; rewrite Lf; cbn; [auto|intros ? [|[]]; auto]). assert (I : In v2 (bvars b)) by (apply Hv; apply (proj1 O)).
      destruct Hf1 as (W1 & W2 & W3). pose proof (rc_bounds _ _ W1 W2 W3) as RB.
      destruct q; cbn [relR] in Lh.
      + injection E as E. eapply spec_ub; [exact O|exact I| | | |exact E]; eauto; [intros rho H; apply Lh in H; cbn [evalE] in H; lra|].
        intros X. exfalso. exact (Xr X _ _ _ Lb).
      + apply (spec_slb f pol v2 l1 r b' O I W2); [intros rho Hg Ht; exact (proj1 (Gp _ _ rho Lb (Ls eq_refl) Hg Ht l1 (or_introl eq_refl)))|intros rho H; apply Lh in H; cbn [evalE] in H; lra| |exact E].
        intros X. exfalso. exact (Xr X _ _ _ Lb).
    - assert (O : only_var f v1) by (split; rewrite Lf; cbn; [auto|intros ? [|[]]; auto]). assert (I : In v1 (bvars b)) by (apply Hv; apply (proj1 O)).
      destruct q; cbn [relR] in Lh.
      + injection E as E. eapply spec_lb; [exact O|exact I| | | |exact E]; eauto; [intros rho H; apply Lh in H; cbn [evalE] in H; lra|].
        intros X rho H. apply Lh. cbn [evalE]. lra.
      + apply (spec_sub f pol v1 c2 r b' O I Hf2); [intros rho Hg Ht; exact (proj2 (Gp _ _ rho Lb (Ls eq_refl) Hg Ht c2 (or_introl eq_refl)))|intros rho H; apply Lh in H; cbn [evalE] in H; lra| |exact E].
        intros X. destruct (Xs X _ _ Lb eq_refl) as [X1 X2]. split; auto. intros rho H. apply Lh. cbn [evalE]. lra.
    - assert (O : only_var f v1) by (split; rewrite Lf; cbn; [auto|intros ? [|[]]; auto]). assert (I : In v1 (bvars b)) by (apply Hv; apply (proj1 O)).
      destruct Hf2 as (W1 & W2 & W3). pose proof (rc_bounds _ _ W1 W2 W3) as RB.
      destruct q; cbn [relR] in Lh.
      + injection E as E. eapply spec_lb; [exact O|exact I| | | |exact E]; eauto; [intros rho H; apply Lh in H; cbn [evalE] in H; lra|].
        intros X. exfalso. exact (Xr X _ _ _ Lb).
      + apply (spec_sub f pol v1 u2 r b' O I W3); [intros rho Hg Ht; exact (proj2 (Gp _ _ rho Lb (Ls eq_refl) Hg Ht u2 (or_intror (or_introl eq_refl))))|intros rho H; apply Lh in H; cbn [evalE] in H; lra| |exact E].
        intros X. exfalso. exact (Xr X _ _ _ Lb).
  Qed.

  Lemma filt_eq_spec f pol o a c (q : bool) r b' : is_lit f pol o a c -> o = (if q then REq else RNeq) -> (forall v, In v (fvF f) -> In v (bvars b)) -> finE a /\ finE c ->
    filt_eq a c q b = Some (r, b') -> (r = NotFiltered /\ b' = b) \/ lit_spec M f pol b r b'.
  Proof.
    intros (Lf & Lh & Lk & o' & Lb & Lo) -> Hv Hf E. unfold filt_eq in E. destruct q; cbn [negb] in E; [|injection E as <- <-; auto].
    assert (Xr : forall (v : var) (l u : dbl), bound_lit f = Some (o', v, [l; u]) -> ~ exact_lit f pol).
    { intros v2 l u A2 (o1 & v1 & c1 & A & B). rewrite A in A2. discriminate. }
    destruct a as [c1|l1 u1 s1|v1| | | | | |], c as [c2|l2 u2 s2|v2| | | | | |]; try (injection E as <- <-; left; auto; fail); right; cbn [finE] in Hf; destruct Hf as [Hf1 Hf2];
      cbn [fvE app] in Lf; cbn [bound_lit consts_of] in Lb; cbn [relR] in Lh; injection E as E.
    - assert (O : only_var f v2) by (split; rewrite Lf; cbn; auto; intros ? [|[]]; auto). eapply spec_eq; [exact O|apply Hv, (proj1 O)|eassumption| |exact E]. intros rho. rewrite Lh. cbn [evalE]. split; auto.
    - assert (O : only_var f v2) by (split; rewrite Lf; cbn; auto; intros ? [|[]]; auto). destruct Hf1 as (W1 & W2 & W3). eapply spec_eq2; [exact O|apply Hv, (proj1 O)|exact W2|exact W3|exact W1| |exact (Xr _ _ _ Lb)|exact E]. intros rho H. apply Lh in H. cbn [evalE] in H. auto.
    - assert (O : only_var f v1) by (split; rewrite Lf; cbn; auto; intros ? [|[]]; auto). eapply spec_eq; [exact O|apply Hv, (proj1 O)|eassumption| |exact E]. exact Lh.
    - assert (O : only_var f v1) by (split; rewrite Lf; cbn; auto; intros ? [|[]]; auto). destruct Hf2 as (W1 & W2 & W3). eapply spec_eq2; [exact O|apply Hv, (proj1 O)|exact W2|exact W3|exact W1| |exact (Xr _ _ _ Lb)|exact E]. intros rho H. apply Lh in H. cbn [evalE] in H. auto.
  Qed.

  Lemma relR_compl o x y : ~ relR o x y <-> relR (relop_neg o) x y.
  Proof. destruct o; cbn [relop_neg relR]; lra. Qed.
  Lemma filt_spec f : forall pol r b', (forall v, In v (fvF f) -> In v (bvars b)) -> finF f ->
    filt f pol b = Some (r, b') -> (r = NotFiltered /\ b' = b) \/ lit_spec M f pol b r b'.
  Proof.
    induction f as [| |v|o a c|gs|gs|g IH|vs g]; intros pol r b' Hv Hf E; try (injection E as <- <-; left; auto; fail).
    - assert (L : forall p', is_lit (FRel o a c) p' (if p' then o else relop_neg o) a c).
      { intros p'. split; [reflexivity|]. split; [|split; [reflexivity|]].
        2:{ exists o. split; [reflexivity|]. destruct p', o; cbn; auto; split; discriminate. }
        intros rho. destruct p'; cbn [lit_holds holds]; [tauto|apply relR_compl]. }
      specialize (L pol). cbn [filt] in E. destruct o.
      + eapply filt_eq_spec; eauto; destruct pol; reflexivity.
      + eapply filt_eq_spec; eauto; destruct pol; reflexivity.
      + eapply filt_gt_spec; eauto; destruct pol; reflexivity.
      + eapply filt_geq_spec; eauto; destruct pol; reflexivity.
      + eapply filt_geq_spec; eauto; destruct pol; reflexivity.
      + eapply filt_gt_spec; eauto; destruct pol; reflexivity.
    - cbn [filt] in E. destruct (IH (negb pol) r b' Hv Hf E) as [H|(v & i & P & H1 & H2 & H3 & H4 & H5)]; [auto|]. right. exists v, i, P. split; auto. split; auto. split; auto.
      assert (Q : forall rho, lit_holds M (FNot g) pol rho <-> lit_holds M g (negb pol) rho).
      { intros rho. destruct pol; cbn [lit_holds negb holds]; [tauto|]. split; [apply NNPP|tauto]. }
      split; [intros rho Hl Hg; apply H4; [apply Q; auto|exact Hg]|]. intros N X rho HP. apply Q. apply H5; auto.
  Qed.
End Lits.

(** ** Consequences for whole boxes *)
Lemma narrowed_in P i v b b' rho : box_ok b -> nth_error (bvars b) i = Some v -> narrowed P i b b' -> (in_box rho b' <-> in_box rho b /\ P (rho v)).
Proof.
  intros K Hi [[-> H]|(y & -> & Ky & Ey & H)].
  - split; [intros C; destruct (b_set_empty_none _ _ C)|]. intros [A B]. exfalso. exact (H _ (in_box_comp _ _ _ _ A Hi) B).
  - split.
    + intros A. assert (B : in_box rho b). { eapply (in_box_set_sub rho b i v y); eauto. intros Hz. apply H. auto. }
      split; auto. assert (C : imem (rho v) (b_get (b_set b i y) i)) by (apply (in_box_comp rho (b_set b i y) i v); auto).
      rewrite b_get_set_eq in C by (eapply box_ok_len; eauto). apply H; auto.
    + intros [A B]. eapply in_box_set_mem; eauto. apply H. split; auto. eapply in_box_comp; eauto.
Qed.
Lemma narrowed_ok P i b b' : box_ok b -> narrowed P i b b' -> box_ok b' /\ bvars b' = bvars b.
Proof. intros K [[-> H]|(y & -> & Ky & _)]; split; auto. apply b_set_empty_ok; auto. apply b_set_ok; auto. Qed.
Lemma narrowed_other P i b b' j : narrowed P i b b' -> (b' = b_set_empty b) \/ (j <> i -> b_get b' j = b_get b j).
Proof. intros [[-> H]|(y & -> & _)]; auto. right. intros N. apply b_get_set_ne. auto. Qed.

Section Top.
  Variables (M : interp) (f : formula) (b b' : box) (r : fres).
  Hypothesis RC : rc_ok M.
  Hypothesis K : box_ok b.
  Hypothesis Hv : forall v, In v (fvF f) -> In v (bvars b).
  Hypothesis Hf : finF f.
  Hypothesis E : filter_assertion f b = Some (r, b').
  Lemma filter_keeps rho : in_box rho b -> holds M f rho -> gap_free f rho -> in_box rho b'.
  Proof.
    intros I H G. destruct (filt_spec M b RC K f true r b' Hv Hf E) as [[_ ->]|(v & i & P & _ & H1 & H2 & H3 & _)]; auto.
    apply (narrowed_in P i v b b'); auto.
  Qed.
  Lemma filter_shrinks : box_ok b' /\ bvars b' = bvars b /\ (forall rho, in_box rho b' -> in_box rho b).
  Proof.
    destruct (filt_spec M b RC K f true r b' Hv Hf E) as [[_ ->]|(v & i & P & _ & H1 & H2 & H3 & _)]; auto.
    destruct (narrowed_ok P i b b' K H2) as [KA KB]. split; auto. split; auto. intros rho H. apply (narrowed_in P i v b b') in H; tauto.
  Qed.
  Lemma filter_exact : r <> NotFiltered -> exact_lit f true -> forall rho, in_box rho b' -> holds M f rho.
  Proof.
    intros N X rho I. destruct (filt_spec M b RC K f true r b' Hv Hf E) as [[? _]|(v & i & P & _ & H1 & H2 & _ & H3)]; [congruence|].
    apply (narrowed_in P i v b b') in I; auto. apply (H3 N X). tauto.
  Qed.
  Lemma filter_other : b' = b_set_empty b \/ (forall j w, nth_error (bvars b) j = Some w -> ~ In w (fvF f) -> b_get b' j = b_get b j).
  Proof.
    destruct (filt_spec M b RC K f true r b' Hv Hf E) as [[_ ->]|(v & i & P & O & H1 & [[? _]|(y & -> & _)] & _)]; auto.
    right. intros j w Hj Nw. apply b_get_set_ne. intros ->. apply Nw. rewrite Hj in H1. injection H1 as ->. apply O.
  Qed.
End Top.
