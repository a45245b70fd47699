(** The stop rule of the propagation loops: rounded relative progress of at least one percent. *)
From Coq Require Import ZArith Reals Lra Lia List Bool Arith Psatz.
From Flocq Require Import Core.Core IEEE754.BinarySingleNaN.
From Verif Require Import Dbl DblProofs Syntax Sem Interval IntervalProofs MathConv MathConvProofs IEval Contr ContrProofs CtxModel SpecWork.
Import ListNotations.
#[local] Opaque dZ.
Local Open Scope R_scope.
Notation fx := (SpecFloat.fexp prec64 emax64).
Notation rne := (round radix2 fx (round_mode mode_NE)).
#[local] Existing Instance fexp_FLT_vexp.

Lemma dyadic m e : (Z.abs m < 2 ^ 53)%Z -> (-1074 <= e)%Z -> generic_format radix2 fx (IZR m * bpow radix2 e).
Proof. intros Hm He. apply (generic_format_FLT radix2 (-1074) 53). exists (Float radix2 m e); auto. Qed.
Lemma over128 m : (Z.abs m < 2 ^ 53)%Z -> generic_format radix2 fx (IZR m / 131072).
Proof. intros H. replace (IZR m / 131072) with (IZR m * bpow radix2 (-17)) by (cbn; lra). apply dyadic; [exact H|lia]. Qed.
Lemma big2 : 2 < bpow radix2 emax64. Proof. replace 2 with (bpow radix2 1) by (cbn; lra). apply bpow_lt. reflexivity. Qed.
Lemma rne_le x m : (Z.abs m < 2 ^ 53)%Z -> x <= IZR m / 131072 -> rne x <= IZR m / 131072.
Proof. intros H. apply round_le_generic; [typeclasses eauto|typeclasses eauto|apply over128; exact H]. Qed.
Lemma rne_ge x m : (Z.abs m < 2 ^ 53)%Z -> IZR m / 131072 <= x -> IZR m / 131072 <= rne x.
Proof. intros H. apply round_ge_generic; [typeclasses eauto|typeclasses eauto|apply over128; exact H]. Qed.

Lemma div_fin a b : is_finite a = true -> B2R b <> 0 -> 0 <= B2R a / B2R b <= 1 -> is_finite (ddiv a b) = true /\ B2R (ddiv a b) = rne (B2R a / B2R b).
Proof.
  intros Fa Nb [H0 H1]. pose proof (Bdiv_correct prec64 emax64 _ _ mode_NE a b Nb) as P. fold (ddiv a b) in P.
  assert (L : 0 <= rne (B2R a / B2R b)). { replace 0 with (IZR 0 / 131072) by lra. apply rne_ge; [reflexivity|lra]. }
  assert (U : rne (B2R a / B2R b) <= 1). { replace 1 with (IZR 131072 / 131072) at 1 by lra. apply rne_le; [reflexivity|lra]. }
  rewrite Rlt_bool_true in P by (rewrite Rabs_pos_eq by exact L; pose proof big2; lra). destruct P as (P1 & P2 & _). split; [rewrite P2; exact Fa|exact P1].
Qed.
Lemma sub_fin q : is_finite q = true -> 0 <= B2R q <= 1 -> is_finite (dsub (dZ 1) q) = true /\ B2R (dsub (dZ 1) q) = rne (1 - B2R q).
Proof.
  intros Fq [H0 H1]. destruct (dZ_exact 1) as [F1 E1]; [lia|]. pose proof (Bminus_correct prec64 emax64 _ _ mode_NE (dZ 1) q F1 Fq) as P. fold (dsub (dZ 1) q) in P. rewrite E1 in P.
  assert (L : 0 <= rne (1 - B2R q)). { replace 0 with (IZR 0 / 131072) by lra. apply rne_ge; [reflexivity|lra]. }
  assert (U : rne (1 - B2R q) <= 1). { replace 1 with (IZR 131072 / 131072) at 2 by lra. apply rne_le; [reflexivity|lra]. }
  rewrite Rlt_bool_true in P by (rewrite Rabs_pos_eq by exact L; pose proof big2; lra). destruct P as (P1 & P2 & _). split; [exact P2|exact P1].
Qed.
Lemma hundredth : is_finite (ddiv (dZ 1) (dZ 100)) = true /\ IZR 1300 / 131072 <= B2R (ddiv (dZ 1) (dZ 100)) <= IZR 1320 / 131072.
Proof.
  destruct (dZ_exact 1) as [F1 E1]; [lia|]. destruct (dZ_exact 100) as [F2 E2]; [lia|].
  destruct (div_fin (dZ 1) (dZ 100)) as [A B]; [exact F1|rewrite E2; lra|rewrite E1, E2; lra|]. split; [exact A|]. rewrite B, E1, E2.
  split; [apply rne_ge; [reflexivity|lra]|apply rne_le; [reflexivity|lra]].
Qed.
(** the computed test against the true ratio *)
Definition progress (w w' : dbl) : bool := dge (dsub (dZ 1) (ddiv w' w)) (ddiv (dZ 1) (dZ 100)).
Lemma fin_nn (x : dbl) : is_finite x = true -> is_nan x = false. Proof. destruct x; auto; discriminate. Qed.
Lemma progress_sound w w' : is_finite w = true -> is_finite w' = true -> 0 < B2R w -> 0 <= B2R w' <= B2R w ->
  (progress w w' = true -> B2R w' <= 991 / 1000 * B2R w) /\ (progress w w' = false -> 98 / 100 * B2R w < B2R w').
Proof.
  intros Fw Fw' P [H0 H1]. unfold progress, dge. set (r := B2R w' / B2R w).
  assert (Er : B2R w' = r * B2R w) by (unfold r; field; lra).
  assert (R01 : 0 <= r <= 1) by (split; nra).
  destruct (div_fin w' w Fw') as [Fq Eq]; [lra|exact R01|]. fold r in Eq. set (q := ddiv w' w) in *.
  assert (Q01 : 0 <= B2R q <= 1).
  { rewrite Eq. split; [replace 0 with (IZR 0 / 131072) by lra; apply rne_ge; [reflexivity|lra]|replace 1 with (IZR 131072 / 131072) by lra; apply rne_le; [reflexivity|lra]]. }
  destruct (sub_fin q Fq Q01) as [Fs Es]. set (s := dsub (dZ 1) q) in *. destruct hundredth as [Fc [C1 C2]]. set (c := ddiv (dZ 1) (dZ 100)) in *.
  change (Bleb c s) with (dle c s). rewrite Er. split; intros E.
  - apply dle_true in E. rewrite (finite_d2e _ Fc), (finite_d2e _ Fs) in E. cbn [ext_le] in E.
    destruct (Rle_lt_dec r (991 / 1000)) as [X|X]; [nra|exfalso].
    assert (Q : IZR 129790 / 131072 <= B2R q) by (rewrite Eq; apply rne_ge; [reflexivity|lra]).
    assert (S1 : B2R s <= IZR 1290 / 131072) by (rewrite Es; apply rne_le; [reflexivity|lra]). lra.
  - destruct (Rlt_le_dec (98 / 100) r) as [X|X]; [nra|exfalso].
    assert (Q : B2R q <= IZR 129000 / 131072) by (rewrite Eq; apply rne_le; [reflexivity|lra]).
    assert (S1 : IZR 2000 / 131072 <= B2R s) by (rewrite Es; apply rne_ge; [reflexivity|lra]).
    assert (T : dle c s = true); [|congruence]. apply dle_spec; [exact (fin_nn _ Fc)|exact (fin_nn _ Fs)|]. rewrite (finite_d2e _ Fc), (finite_d2e _ Fs). cbn [ext_le]. lra.
Qed.

(** ** Widths *)
Notation rup := (round radix2 fx Zceil).
Lemma diam_cases l u : i_ok (IV l u) ->
  (is_finite (i_diam (IV l u)) = true /\ is_finite l = true /\ is_finite u = true /\ B2R (i_diam (IV l u)) = rup (B2R u - B2R l)) \/ i_diam (IV l u) = dpinf.
Proof.
  intros K. pose proof K as (Kle & K1 & K2). cbn [i_diam].
  assert (Nl : is_nan l = false) by (destruct l; auto; destruct u as [|[]| |]; discriminate).
  assert (Nu : is_nan u = false) by (destruct u; auto; destruct l as [|[]| |]; discriminate).
  destruct (is_finite l) eqn:Fl, (is_finite u) eqn:Fu.
  - pose proof (Bminus_correct prec64 emax64 _ _ mode_UP u l Fu Fl) as C. cbn [round_mode] in C. set (x := B2R u - B2R l) in *.
    destruct (Rlt_bool_spec (Rabs (rup x)) (bpow radix2 emax64)) as [O|O].
    + left. destruct C as (C1 & C2 & _). split; [exact C2|]. split; [reflexivity|]. split; [reflexivity|exact C1].
    + right. destruct C as [C _]. assert (Hx : 0 <= x). { apply dle_true in Kle. rewrite (finite_d2e _ Fl), (finite_d2e _ Fu) in Kle. cbn in Kle. unfold x; lra. }
      apply B2SF_inj. rewrite C. unfold binary_overflow. cbn. destruct (Bsign u) eqn:Su; [|reflexivity]. exfalso.
      assert (Bu : B2R u <= 0). { destruct u as [s| | |s m e ?]; cbn in Su; subst; try discriminate; cbn; try lra. apply F2R_le_0. cbn. lia. }
      assert (Bx : 0 <= x <= - B2R l) by (unfold x in *; lra).
      assert (Hr : rup x <= - B2R l) by (apply round_le_generic; [typeclasses eauto|apply valid_rnd_UP|apply generic_format_opp, dfmt_gen|lra]).
      assert (Hr0 : 0 <= rup x) by (apply round_ge_generic; [typeclasses eauto|apply valid_rnd_UP|apply generic_format_0|lra]).
      rewrite Rabs_pos_eq in O by exact Hr0. pose proof (abs_B2R_lt_emax prec64 emax64 l) as Hl. unfold Rabs in Hl. destruct (Rcase_abs (B2R l)); lra.
  - right. destruct u as [|[]| |]; try discriminate. destruct l as [| | |]; try discriminate; reflexivity.
  - right. destruct l as [|[]| |]; try discriminate. destruct u as [| | |]; try discriminate; reflexivity.
  - right. destruct l as [|[]| |]; try discriminate; destruct u as [|[]| |]; try discriminate; reflexivity.
Qed.
Lemma diam_pinf l u : i_ok (IV l u) -> deq (i_diam (IV l u)) dpinf = negb (is_finite (i_diam (IV l u))).
Proof. intros K. destruct (diam_cases l u K) as [(F & _)|E]; [|rewrite E; reflexivity]. rewrite F. destruct (i_diam (IV l u)) as [|[]| |]; try discriminate F; reflexivity. Qed.
(** a finite sub-interval is no wider, as computed *)
Lemma diam_mono l u l' u' : i_ok (IV l u) -> i_ok (IV l' u') -> (forall x, imem x (IV l' u') -> imem x (IV l u)) ->
  bounded (IV l u) -> bounded (IV l' u') -> 0 <= B2R (i_diam (IV l' u')) <= B2R (i_diam (IV l u)).
Proof.
  unfold bounded. intros K K' Sub B B'. destruct (diam_cases l u K) as [(_ & Fl & Fu & E)|E]; [|rewrite E in B; discriminate].
  destruct (diam_cases l' u' K') as [(_ & Fl' & Fu' & E')|E']; [|rewrite E' in B'; discriminate]. rewrite E, E'.
  assert (L' : B2R l' <= B2R u'). { destruct K' as (X & _). apply dle_true in X. rewrite (finite_d2e _ Fl'), (finite_d2e _ Fu') in X. exact X. }
  destruct (Sub (B2R l')) as [A _]; [cbn [imem]; rewrite (finite_d2e _ Fl'), (finite_d2e _ Fu'); cbn [ext_le]; lra|].
  destruct (Sub (B2R u')) as [_ C]; [cbn [imem]; rewrite (finite_d2e _ Fl'), (finite_d2e _ Fu'); cbn [ext_le]; lra|].
  rewrite (finite_d2e _ Fl) in A. rewrite (finite_d2e _ Fu) in C. cbn [ext_le] in A, C. split.
  - apply round_ge_generic; [typeclasses eauto|apply valid_rnd_UP|apply generic_format_0|lra].
  - apply round_le; [typeclasses eauto|apply valid_rnd_UP|lra].
Qed.
Lemma diam_pos l u : i_ok (IV l u) -> bounded (IV l u) -> i_degenerated (IV l u) = negb (Rlt_bool 0 (B2R (i_diam (IV l u)))).
Proof.
  unfold bounded. intros K B. destruct (diam_cases l u K) as [(_ & Fl & Fu & E)|E]; [|rewrite E in B; discriminate]. rewrite E. cbn [i_degenerated].
  assert (L : B2R l <= B2R u). { destruct K as (X & _). apply dle_true in X. rewrite (finite_d2e _ Fl), (finite_d2e _ Fu) in X. exact X. }
  assert (U : B2R u - B2R l <= rup (B2R u - B2R l)) by (apply round_UP_pt; typeclasses eauto).
  destruct (deq l u) eqn:Ed.
  - apply deq_spec in Ed; [|exact (fin_nn _ Fl)|exact (fin_nn _ Fu)]. rewrite (finite_d2e _ Fl), (finite_d2e _ Fu) in Ed. assert (B2R l = B2R u) by congruence.
    rewrite Rminus_diag_eq by congruence. rewrite round_0 by apply valid_rnd_UP. rewrite Rlt_bool_false by lra. reflexivity.
  - rewrite Rlt_bool_true; [reflexivity|]. assert (B2R l <> B2R u); [|lra]. intros C. assert (deq l u = true); [|congruence].
    apply deq_spec; [exact (fin_nn _ Fl)|exact (fin_nn _ Fu)|]. rewrite (finite_d2e _ Fl), (finite_d2e _ Fu). f_equal. exact C.
Qed.
Lemma div_inf w' : is_finite w' = true -> progress dpinf w' = true.
Proof.
  intros F. unfold progress, dge. assert (Q : is_finite (ddiv w' dpinf) = true /\ B2R (ddiv w' dpinf) = 0) by (destruct w' as [s|s| |s m e H]; try discriminate F; split; reflexivity).
  destruct Q as [Fq Eq]. destruct (sub_fin (ddiv w' dpinf) Fq) as [Fs Es]; [rewrite Eq; lra|]. rewrite Eq in Es. destruct hundredth as [Fc [C1 C2]].
  assert (S1 : IZR 2000 / 131072 <= B2R (dsub (dZ 1) (ddiv w' dpinf))) by (rewrite Es; apply rne_ge; [reflexivity|lra]).
  apply dle_spec; [exact (fin_nn _ Fc)|exact (fin_nn _ Fs)|]. rewrite (finite_d2e _ Fc), (finite_d2e _ Fs). cbn [ext_le]. lra.
Qed.
Definition quiet (i j : ival) : bool := if deq (i_diam j) dpinf then true else if i_degenerated i then true else negb (progress (i_diam i) (i_diam j)).
Lemma quiet_spec i j : i_ok i -> i_ok j -> i_empty i = false -> i_empty j = false -> (forall x, imem x j -> imem x i) ->
  (quiet i j = true -> ~ clear_progress i j) /\ (quiet i j = false -> some_progress i j).
Proof.
  intros Ki Kj Ei Ej Sub. destruct i as [|l u]; [discriminate|]. destruct j as [|l' u']; [discriminate|]. unfold quiet. rewrite (diam_pinf l' u' Kj).
  destruct (is_finite (i_diam (IV l' u'))) eqn:Bj; cbn [negb]; [|split; [intros _ [C _]; unfold bounded in C; congruence|discriminate]].
  destruct (diam_cases l u Ki) as [(Bi & _)|Ei'].
  - rewrite (diam_pos l u Ki Bi). pose proof (diam_mono l u l' u' Ki Kj Sub Bi Bj) as Dm.
    destruct (Rlt_bool_spec 0 (B2R (i_diam (IV l u)))) as [P|P]; cbn [negb].
    + destruct (progress_sound _ _ Bi Bj P Dm) as [A B]. destruct (progress (i_diam (IV l u)) (i_diam (IV l' u'))); cbn [negb]; split; try discriminate; intros _.
      * split; [exact Bj|]. right. exact (A eq_refl).
      * intros [_ [C|[_ C]]]; [exact (C Bi)|]. specialize (B eq_refl). lra.
    + split; [|discriminate]. intros _ [_ [C|[C _]]]; [exact (C Bi)|lra].
  - assert (Dg : i_degenerated (IV l u) = false).
    { cbn [i_degenerated]. destruct (deq l u) eqn:Ed; [|reflexivity]. exfalso. cbn [i_diam] in Ei'. destruct Ki as (X1 & X2 & X3).
      destruct l as [s|[]| |s m e H]; destruct u as [s2|[]| |s2 m2 e2 H2]; try discriminate.
      - cbn in Ei'. destruct s, s2; discriminate.
      - revert Ei'. intros Ei'. set (l := B754_finite s m e H) in *. set (u := B754_finite s2 m2 e2 H2) in *.
        assert (Er : B2R l = B2R u). { apply deq_spec in Ed; [|reflexivity|reflexivity]. change (Fin (B2R l) = Fin (B2R u)) in Ed. congruence. }
        pose proof (Bminus_correct prec64 emax64 _ _ mode_UP u l eq_refl eq_refl) as C. rewrite Er, Rminus_diag_eq in C by reflexivity. rewrite round_0 in C by apply valid_rnd_round_mode.
        rewrite Rabs_R0, Rlt_bool_true in C by apply bpow_gt_0. destruct C as (_ & C & _). rewrite Ei' in C. discriminate. }
    rewrite Dg. rewrite Ei', (div_inf _ Bj). cbn [negb]. split; [discriminate|]. intros _. split; [exact Bj|]. left. unfold bounded. rewrite Ei'. discriminate.
Qed.
Theorem stop_rule old new : Forall2 (fun i j => i_ok i /\ i_ok j /\ i_empty i = false /\ i_empty j = false /\ forall x, imem x j -> imem x i) old new ->
  (default_term old new = true -> Forall2 (fun i j => ~ clear_progress i j) old new) /\
  (default_term old new = false -> exists n i j, nth_error old n = Some i /\ nth_error new n = Some j /\ some_progress i j).
Proof.
  intros H. assert (E : default_term old new = forallb (fun p => quiet (fst p) (snd p)) (combine old new)) by reflexivity. rewrite E. clear E.
  induction H as [|i j old new (Ki & Kj & Ei & Ej & Sub) H IH]; cbn [combine forallb fst snd]; [split; [constructor|discriminate]|].
  destruct (quiet_spec i j Ki Kj Ei Ej Sub) as [Q1 Q2]. destruct IH as [I1 I2]. split; intros X.
  - apply andb_true_iff in X. destruct X as [X1 X2]. constructor; auto.
  - destruct (quiet i j).
    + destruct (I2 X) as (n & a & b & A & B & C). exists (S n), a, b. auto.
    + exists 0%nat, i, j. auto.
Qed.
(** ** Leaving the loop of the plain fixpoint *)
Section Fix.
  Variables (Orc : oracles) (term : list ival -> list ival -> bool).
  Lemma fix_last pr n cs : forall s s', fix_loop term pr n cs s = Some s' -> b_empty (cs_box s') = true \/
    exists s1, seq_run pr cs s1 = Some s' /\ term (bvals (cs_box s1)) (bvals (cs_box s')) = true.
  Proof.
    induction n as [|n IH]; intros s s' E; cbn [fix_loop] in E; [discriminate|]. destruct (seq_run pr cs s) as [s1|] eqn:E1; cbn [bind] in E; [|discriminate].
    destruct (b_empty (cs_box s1)) eqn:E2; [left; congruence|]. destruct (term (bvals (cs_box s)) (bvals (cs_box s1))) eqn:Et; [|exact (IH _ _ E)].
    right. exists s. split; congruence.
  Qed.
End Fix.
