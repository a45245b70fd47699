(** Contractors only shrink the box and keep every solution. *)
From Coq Require Import ZArith Reals Lra Lia List Bool.
From Flocq Require Import Core.Core IEEE754.BinarySingleNaN.
From Verif Require Import Dbl DblProofs Syntax Sem SemProofs Interval IntervalProofs MathConv MathConvProofs IEval IEvalProofs Contr.
Import ListNotations.
Local Open Scope R_scope.

Lemma i_ok_member i : i_ok i -> i_empty i = false -> exists x, imem x i.
Proof.
  destruct i as [|l u]; [discriminate|]. intros (A & B & C) _. pose proof (dle_true _ _ A) as L. destruct (dle_not_nan _ _ A) as [Nl Nu].
  cbn [imem].
  destruct (is_finite l) eqn:Fl; [exists (B2R l)|destruct (is_finite u) eqn:Fu; [exists (B2R u)|exists 0]].
  - rewrite (finite_d2e _ Fl) in *. split; auto. cbn; lra.
  - rewrite (finite_d2e _ Fu) in *. split; auto. cbn; lra.
  - destruct l as [|[]| |], u as [|[]| |]; try discriminate; cbn; auto.
Qed.

Lemma iv_sub_refl l : iv_sub l l. Proof. intros i x; auto. Qed.
Lemma iv_sub_trans l m k : iv_sub l m -> iv_sub m k -> iv_sub l k.
Proof. intros A B i x H; auto. Qed.

Lemma in_box_sub rho b b' : box_ok b -> box_ok b' -> bvars b' = bvars b -> iv_sub (bvals b') (bvals b) -> in_box rho b' -> in_box rho b.
Proof.
  intros K K' Ev Hs [He Hm]. split.
  - rewrite b_empty_get in *. unfold b_get in *.
    destruct (i_ok_member (nth 0 (bvals b') IEmpty)) as [x Hx]; auto.
    { apply (box_ok_get b' 0%nat K'). }
    apply Hs in Hx. eapply imem_nonempty; eauto.
  - intros i v Hv. rewrite <- Ev in Hv. apply Hm in Hv. apply Hs in Hv. exact Hv.
Qed.

Lemma box_ok_mk b iv : box_ok b -> length iv = length (bvals b) -> Forall i_ok iv -> box_ok (mkBox (bvars b) iv).
Proof. intros (A & B & C) E F. split; [exact A|]. split; cbn [bvars bvals]; [rewrite E; exact B|exact F]. Qed.

Lemma mem_form_In f l : mem_form f l = true <-> In f l.
Proof.
  unfold mem_form. rewrite existsb_exists. split.
  - intros (x & Hx & E). apply formula_eqb_eq in E. subst; auto.
  - intros H; exists f; split; auto. apply formula_eqb_refl.
Qed.

(** Status updates that do not touch the box. *)
Lemma add_witness_box s v : cs_box (add_witness s v) = cs_box s. Proof. reflexivity. Qed.
Lemma fold_witness_same vs s : cs_box (fold_left add_witness vs s) = cs_box s /\ cs_bp (fold_left add_witness vs s) = cs_bp s /\
  cs_used (fold_left add_witness vs s) = cs_used s /\ cs_out (fold_left add_witness vs s) = cs_out s.
Proof. revert s; induction vs as [|v vs IH]; intros s; cbn; auto. destruct (IH (add_witness s v)) as (A & B & C & E). rewrite A, B, C, E. auto. Qed.
Lemma fold_witness_in vs s v : In v (cs_wit (fold_left add_witness vs s)) <-> In v vs \/ In v (cs_wit s).
Proof.
  revert s; induction vs as [|w vs IH]; intros s; cbn [fold_left In]; [tauto|]. rewrite IH. cbn [add_witness cs_wit].
  destruct (mem_var w (cs_wit s)) eqn:E.
  - apply mem_var_In in E. split; [tauto|]. intros [[->|H]|H]; auto.
  - rewrite in_app_iff. cbn. tauto.
Qed.
Lemma add_used_box s f : cs_box (add_used s f) = cs_box s.
Proof. unfold add_used. destruct (b_empty (cs_box s)); cbn; auto. apply fold_witness_same. Qed.
Lemma add_used_bp s f : cs_bp (add_used s f) = cs_bp s.
Proof. unfold add_used. destruct (b_empty (cs_box s)); cbn; auto. apply fold_witness_same. Qed.
Lemma add_used_out s f : cs_out (add_used s f) = cs_out s.
Proof. unfold add_used. destruct (b_empty (cs_box s)); cbn; auto. apply fold_witness_same. Qed.
Lemma add_used_used s f g : In g (cs_used (add_used s f)) <-> g = f \/ In g (cs_used s).
Proof.
  unfold add_used. set (s1 := if b_empty (cs_box s) then _ else _).
  assert (E : cs_used s1 = cs_used s). { unfold s1. destruct (b_empty (cs_box s)); auto. apply fold_witness_same. }
  cbn [cs_used]. rewrite E. destruct (mem_form f (cs_used s)) eqn:Em.
  - apply mem_form_In in Em. split; [auto|]. intros [->|]; auto.
  - rewrite in_app_iff. cbn. intuition.
Qed.
Lemma add_used_wit s f v : In v (cs_wit (add_used s f)) <-> (b_empty (cs_box s) = true /\ In v (fvF f)) \/ In v (cs_wit s).
Proof.
  unfold add_used. cbn [cs_wit]. destruct (b_empty (cs_box s)); cbn [cs_wit].
  - rewrite fold_witness_in. tauto.
  - intuition discriminate.
Qed.
Lemma add_used_list_same fs s : cs_box (add_used_list s fs) = cs_box s /\ cs_bp (add_used_list s fs) = cs_bp s /\ cs_out (add_used_list s fs) = cs_out s.
Proof.
  unfold add_used_list. revert s. induction fs as [|f fs IH]; intros s; cbn [fold_left]; auto.
  destruct (IH (add_used s f)) as (A & B & C). rewrite A, B, C, add_used_box, add_used_bp, add_used_out. auto.
Qed.
Lemma add_used_list_used fs s g : In g (cs_used (add_used_list s fs)) <-> In g fs \/ In g (cs_used s).
Proof.
  unfold add_used_list. revert s. induction fs as [|f fs IH]; intros s; cbn [fold_left In]; [tauto|].
  rewrite IH, add_used_used. intuition.
Qed.
Lemma add_used_list_wit fs s v : In v (cs_wit (add_used_list s fs)) <->
  (b_empty (cs_box s) = true /\ exists f, In f fs /\ In v (fvF f)) \/ In v (cs_wit s).
Proof.
  unfold add_used_list. revert s. induction fs as [|f fs IH]; intros s; cbn [fold_left In].
  - split; auto. intros [(_ & f & [] & _)|H]; auto.
  - rewrite IH, add_used_wit, add_used_box. split.
    + intros [(E & g & Hg & Hv)|[(E & Hv)|H]]; eauto 6.
    + intros [(E & g & [->|Hg] & Hv)|H]; eauto 7.
Qed.

(** What one pruning operation guarantees. *)
Record keeps (P : env -> Prop) (s s' : cstat) : Prop := {
  k_vars : bvars (cs_box s') = bvars (cs_box s);
  k_bp : cs_bp s' = cs_bp s;
  k_ok : box_ok (cs_box s');
  k_sub : iv_sub (bvals (cs_box s')) (bvals (cs_box s));
  k_pts : forall rho, well_typed rho -> in_box rho (cs_box s) -> P rho -> in_box rho (cs_box s');
  k_used : incl (cs_used s) (cs_used s');
  k_wit : incl (cs_wit s) (cs_wit s')
}.

Lemma keeps_refl P s : box_ok (cs_box s) -> keeps P s s.
Proof. intros K; constructor; auto; try apply incl_refl. apply iv_sub_refl. Qed.
Lemma keeps_trans (P Q R : env -> Prop) s t u : (forall rho, R rho -> P rho /\ Q rho) -> keeps P s t -> keeps Q t u -> keeps R s u.
Proof.
  intros I [A1 A2 A3 A4 A5 A6 A7] [B1 B2 B3 B4 B5 B6 B7]. constructor; try congruence.
  - eapply iv_sub_trans; eauto.
  - intros rho W H HR. destruct (I _ HR). auto.
  - eapply incl_tran; eauto.
  - eapply incl_tran; eauto.
Qed.
Lemma keeps_weaken (P Q : env -> Prop) s t : (forall rho, Q rho -> P rho) -> keeps P s t -> keeps Q s t.
Proof. intros I [A1 A2 A3 A4 A5 A6 A7]. constructor; auto. Qed.
Lemma keeps_same P s t : box_ok (cs_box s) -> cs_box t = cs_box s -> cs_bp t = cs_bp s -> incl (cs_used s) (cs_used t) ->
  incl (cs_wit s) (cs_wit t) -> keeps P s t.
Proof. intros K E B U W. constructor; rewrite ?E; auto. apply iv_sub_refl. Qed.

Section Prune.
  Variables (M : interp) (D : pdom) (Orc : oracles) (term : list ival -> list ival -> bool).

  Lemma step_keeps fs s iv : box_ok (cs_box s) -> step_ok M D fs (cs_box s) iv ->
    keeps (fun rho => forall f, In f fs -> solves M D f rho) s (cs_with_box s (mkBox (bvars (cs_box s)) iv)).
  Proof.
    intros K (A & B & C & E & _). constructor; cbn; auto; try apply incl_refl.
    apply box_ok_mk; auto.
  Qed.

  Lemma add_used_keeps P s o f : box_ok (cs_box s) -> keeps P s (add_used (cs_with_out s o) f).
  Proof.
    intros K. apply keeps_same; auto.
    - rewrite add_used_box. reflexivity.
    - rewrite add_used_bp. reflexivity.
    - intros g Hg. apply add_used_used. right. exact Hg.
    - intros g Hg. apply add_used_wit. right. exact Hg.
  Qed.
  Lemma add_used_list_keeps P s o fs : box_ok (cs_box s) -> keeps P s (add_used_list (cs_with_out s o) fs).
  Proof.
    intros K. destruct (add_used_list_same fs (cs_with_out s o)) as (A & B & _). apply keeps_same; auto.
    - intros g Hg. apply add_used_list_used. right. exact Hg.
    - intros g Hg. apply add_used_list_wit. right. exact Hg.
  Qed.

  Lemma prune_fwd_keeps f s : box_ok (cs_box s) -> fwd_ok M D Orc f (bvars (cs_box s)) ->
    keeps (solves M D f) s (prune_fwd Orc f s).
  Proof.
    intros K H. destruct (H _ K eq_refl) as [Hs _]. unfold prune_fwd.
    destruct (o_bwd Orc f (cs_box s)) as [inner iv]. cbn [snd] in Hs.
    pose proof (step_keeps [f] s iv K Hs) as S. set (s1 := cs_with_box s _) in *.
    assert (S' : keeps (solves M D f) s s1) by (eapply keeps_weaken; [|exact S]; intros rho Hf g [<-|[]]; exact Hf).
    assert (K1 := k_ok _ _ _ S').
    destruct inner; auto. destruct (b_empty _).
    - eapply keeps_trans; [|exact S'|apply (add_used_keeps (fun _ => True)); auto]. auto.
    - destruct (changed_bits _ _ _ _); auto.
      eapply keeps_trans; [|exact S'|apply (add_used_keeps (fun _ => True)); auto]. auto.
  Qed.
  Lemma prune_poly_keeps fs s : box_ok (cs_box s) -> poly_ok M D Orc fs (bvars (cs_box s)) ->
    keeps (fun rho => forall f, In f fs -> solves M D f rho) s (prune_poly Orc fs s).
  Proof.
    intros K H. pose proof (step_keeps fs s _ K (H _ K eq_refl)) as S'. unfold prune_poly. cbv zeta.
    set (s1 := cs_with_box s _) in *. assert (K1 := k_ok _ _ _ S').
    destruct (b_empty _).
    - eapply keeps_trans; [|exact S'|apply (add_used_list_keeps (fun _ => True)); auto]. auto.
    - destruct (changed_bits _ _ _ _); auto.
      eapply keeps_trans; [|exact S'|apply (add_used_list_keeps (fun _ => True)); auto]. auto.
  Qed.
  Lemma prune_forall_keeps f s s' : box_ok (cs_box s) -> fa_ok M D Orc f (bvars (cs_box s)) -> prune_forall Orc f s = Some s' ->
    keeps (solves M D f) s s'.
  Proof.
    intros K H. unfold prune_forall. destruct (o_fa Orc f (cs_box s)) as [iv|] eqn:E; cbn [bind]; [|discriminate]. intros [= <-].
    pose proof (step_keeps [f] s iv K (H _ _ K eq_refl E)) as S. set (s1 := cs_with_box s _) in *.
    assert (S' : keeps (solves M D f) s s1) by (eapply keeps_weaken; [|exact S]; intros rho Hf g [<-|[]]; exact Hf).
    assert (K1 := k_ok _ _ _ S').
    destruct (b_empty _); (eapply keeps_trans; [|exact S'|apply (add_used_keeps (fun _ => True)); auto]); auto.
  Qed.

  Lemma is_integer_round l : is_integer l = true -> d2e (dceil l) = d2e l /\ d2e (dfloor l) = d2e l.
  Proof.
    intros H. apply is_integer_spec in H. destruct H as (F & z & _ & E).
    rewrite !finite_d2e by (rewrite ?dceil_fin, ?dfloor_fin; auto). rewrite dceil_R, dfloor_R, E, Zceil_IZR, Zfloor_IZR. auto.
  Qed.

  (** Rounding an integer variable's interval inwards. *)
  Lemma int_round_mem l u z : i_ok (IV l u) -> imem (IZR z) (IV l u) ->
    dle (dceil l) (dfloor u) = true /\ imem (IZR z) (mk_ival (dceil l) (dfloor u)).
  Proof.
    intros K [H1 H2]. destruct (i_ok_nan _ _ K) as [Nl Nu].
    pose proof (dceil_le_int _ _ Nl H1) as A. pose proof (dfloor_ge_int _ _ Nu H2) as B.
    pose proof (dceil_nan _ Nl) as C1. pose proof (dfloor_nan' _ Nu) as C2. split.
    - apply dle_spec; auto. eapply ext_le_trans; eauto.
    - apply mk_ival_mem; auto.
  Qed.
  Lemma int_round_sub l u x : i_ok (IV l u) -> imem x (mk_ival (dceil l) (dfloor u)) -> imem x (IV l u).
  Proof.
    intros K H. destruct (i_ok_nan _ _ K) as [Nl Nu]. apply mk_ival_mem_imp in H. destruct H as [A B]. split.
    - eapply ext_le_trans; [apply dceil_ge|]; eauto.
    - eapply ext_le_trans; [|apply dfloor_le]; eauto.
  Qed.

  Lemma b_set_sub b i x : (forall y, imem y x -> imem y (b_get b i)) -> iv_sub (bvals (b_set b i x)) (bvals b).
  Proof.
    intros H j y Hy. cbn [b_set bvals] in Hy. destruct (Nat.eq_dec i j) as [->|N].
    - destruct (Nat.lt_ge_cases j (length (bvals b))).
      + rewrite nth_upd_nth_eq in Hy by auto. apply H; auto.
      + rewrite upd_nth_oob in Hy; auto.
    - rewrite nth_upd_nth_ne in Hy by auto. auto.
  Qed.
  Lemma iv_sub_empty (l m : list ival) : iv_sub (map (fun _ => IEmpty) l) m.
  Proof.
    intros i x H. assert (E : nth i (map (fun _ : ival => IEmpty) l) IEmpty = IEmpty).
    { exact (map_nth (fun _ => IEmpty) l IEmpty i). }
    rewrite E in H. contradiction.
  Qed.

  Lemma int_type_isint v x : is_int_type (vty v) = true -> typed_val (vty v) x -> isint x.
  Proof. intros H. apply typed_isint. destruct (vty v); try discriminate; auto. Qed.

  Lemma prune_int_keeps idx s : box_ok (cs_box s) ->
    (forall i, In i idx -> exists v, nth_error (bvars (cs_box s)) i = Some v /\ is_int_type (vty v) = true) ->
    keeps (fun _ => True) s (prune_int idx s).
  Proof.
    revert s; induction idx as [|i idx IH]; intros s K Hi; cbn [prune_int]; [apply keeps_refl; auto|].
    destruct (Hi i (or_introl eq_refl)) as (v & Hv & Ht).
    destruct (b_get (cs_box s) i) as [|l u] eqn:Eg; [apply IH; auto; intros j Hj; apply Hi; right; auto|].
    assert (Kg : i_ok (IV l u)) by (rewrite <- Eg; apply box_ok_get; auto).
    destruct (negb (is_integer l) || negb (is_integer u)); [|apply IH; auto; intros j Hj; apply Hi; right; auto].
    destruct (dle (dceil l) (dfloor u)) eqn:El.
    - set (s1 := cs_with_out _ _).
      assert (S : keeps (fun _ => True) s s1).
      { constructor; cbn; auto; try apply incl_refl.
        - apply b_set_ok; auto. apply mk_ival_ok.
        - apply (b_set_sub (cs_box s)). rewrite Eg. intros y. apply int_round_sub; auto.
        - intros rho W HB _. eapply in_box_set_mem; eauto.
          pose proof (in_box_comp _ _ _ _ HB Hv) as Hm. rewrite Eg in Hm.
          destruct (int_type_isint _ _ Ht (W v)) as [z Ez]. rewrite Ez in *. apply int_round_mem; auto. }
      eapply keeps_trans; [|exact S|apply IH].
      + auto.
      + apply (k_ok _ _ _ S).
      + intros j Hj. cbn. apply Hi. right; auto.
    - rewrite Hv. constructor; cbn; auto; try apply incl_refl.
      + apply b_set_empty_ok; auto.
      + apply iv_sub_empty.
      + intros rho W HB _. exfalso. pose proof (in_box_comp _ _ _ _ HB Hv) as Hm. rewrite Eg in Hm.
        destruct (int_type_isint _ _ Ht (W v)) as [z Ez]. rewrite Ez in *. destruct (int_round_mem _ _ _ Kg Hm) as [C _]. congruence.
      + destruct (existsb (var_eqb v) (cs_wit s)); [apply incl_refl|apply incl_appl, incl_refl].
  Qed.

  (** union *)
  Lemma nth_map_combine {A B C} (f : A * B -> C) (l : list A) (m : list B) a b d i : length l = length m -> f (a, b) = d ->
    nth i (map f (combine l m)) d = f (nth i l a, nth i m b).
  Proof.
    intros H E. rewrite <- E. rewrite map_nth. f_equal. apply combine_nth. auto.
  Qed.
  Lemma i_hull_sub a b c : i_ok a -> i_ok b -> i_ok c -> (forall x, imem x a -> imem x c) -> (forall x, imem x b -> imem x c) ->
    forall x, imem x (i_hull a b) -> imem x c.
  Proof.
    intros Ka Kb Kc Ha Hb x. destruct a as [|l u]; cbn [i_hull]; [apply Hb|]. destruct b as [|l' u']; [apply Ha|].
    destruct (i_ok_nan _ _ Ka) as [N1 N2]. destruct (i_ok_nan _ _ Kb) as [N3 N4].
    destruct (i_ok_member _ Ka eq_refl) as [y Hy]. pose proof (Ha _ Hy) as Cy. destruct (i_ok_member _ Kb eq_refl) as [z Hz]. pose proof (Hb _ Hz) as Cz.
    destruct c as [|lc uc]; [contradiction|]. intros [H1 H2]. cbn [imem] in *.
    (* lower bound of the hull is one of the two lower bounds; x is between a point of one and a point of the other *)
    assert (L : forall w, ext_le (d2e (dminf l l')) (Fin w) -> imem w (IV l u) \/ imem w (IV l' u') \/ (ext_le (Fin w) (Fin y) /\ ext_le (Fin w) (Fin z)) \/ (w >= y \/ w >= z)).
    { intros w _. right; right. cbn. destruct (Rle_dec w y), (Rle_dec w z); auto; right; lra. }
    clear L. split.
    - destruct (Rle_dec y x) as [Hyx|Hyx]; [eapply ext_le_trans; [apply Cy|exact Hyx]|].
      destruct (Rle_dec z x) as [Hzx|Hzx]; [eapply ext_le_trans; [apply Cz|exact Hzx]|].
      assert (X : ext_le (d2e l) (Fin x) \/ ext_le (d2e l') (Fin x)).
      { unfold dminf in H1. destruct (dlt l' l); auto. }
      destruct X as [X|X].
      + apply (Ha x). split; auto. eapply ext_le_trans; [|apply Hy]. cbn; lra.
      + apply (Hb x). split; auto. eapply ext_le_trans; [|apply Hz]. cbn; lra.
    - destruct (Rle_dec x y) as [Hyx|Hyx]; [eapply ext_le_trans; [|apply Cy]; exact Hyx|].
      destruct (Rle_dec x z) as [Hzx|Hzx]; [eapply ext_le_trans; [|apply Cz]; exact Hzx|].
      assert (X : ext_le (Fin x) (d2e u) \/ ext_le (Fin x) (d2e u')).
      { unfold dmaxf in H2. destruct (dlt u u'); auto. }
      destruct X as [X|X].
      + apply (Ha x). split; auto. eapply ext_le_trans; [apply Hy|]. cbn; lra.
      + apply (Hb x). split; auto. eapply ext_le_trans; [apply Hz|]. cbn; lra.
  Qed.

  Lemma b_union_spec a b : box_ok a -> box_ok b -> bvars a = bvars b ->
    bvars (b_union a b) = bvars a /\ box_ok (b_union a b) /\
    (forall rho, in_box rho a \/ in_box rho b -> in_box rho (b_union a b)) /\
    (forall c, Forall i_ok c -> iv_sub (bvals a) c -> iv_sub (bvals b) c -> iv_sub (bvals (b_union a b)) c).
  Proof.
    intros Ka Kb Ev. unfold b_union. destruct (b_empty b) eqn:Eb.
    { split; [reflexivity|]. split; [exact Ka|]. split; [|auto].
      intros rho [H|H]; auto. exfalso; eapply b_empty_none; eauto. }
    destruct (b_empty a) eqn:Ea.
    { assert (K : box_ok (mkBox (bvars a) (bvals b))). { apply (box_ok_mk a); auto. - destruct Ka as (_ & L & _), Kb as (_ & L' & _). congruence. - apply Kb. }
      split; [reflexivity|]. split; [exact K|]. split.
      - intros rho [H|H]; [exfalso; eapply b_empty_none; eauto|]. destruct H as [H1 H2]. split; auto. cbn. rewrite Ev. exact H2.
      - intros c _ _ H. exact H. }
    assert (Hl : length (bvals a) = length (bvals b)). { destruct Ka as (_ & L & _), Kb as (_ & L' & _). congruence. }
    assert (Hn : forall i, nth i (map (fun p => i_hull (fst p) (snd p)) (combine (bvals a) (bvals b))) IEmpty =
                 i_hull (b_get a i) (b_get b i)).
    { intros i. rewrite (nth_map_combine _ _ _ IEmpty IEmpty); auto. }
    split; [reflexivity|]. split; [|split].
    - apply (box_ok_mk a); auto.
      + rewrite map_length, combine_length, Hl. apply Nat.min_id.
      + apply Forall_forall. intros x Hx. apply in_map_iff in Hx. destruct Hx as ([p q] & <- & Hp). cbn.
        pose proof (in_combine_l _ _ _ _ Hp). pose proof (in_combine_r _ _ _ _ Hp). apply i_hull_ok.
        * destruct Ka as (_ & _ & F). rewrite Forall_forall in F. auto.
        * destruct Kb as (_ & _ & F). rewrite Forall_forall in F. auto.
    - assert (Hm : forall rho, in_box rho a \/ in_box rho b -> in_box rho (mkBox (bvars a) (map (fun p => i_hull (fst p) (snd p)) (combine (bvals a) (bvals b))))).
      { intros rho H. split.
        - rewrite b_empty_get. unfold b_get. cbn [bvals]. rewrite Hn.
          rewrite b_empty_get in Ea, Eb. destruct (b_get a 0) eqn:E0; [discriminate|]. destruct (b_get b 0) eqn:E1; [discriminate|]. reflexivity.
        - intros i v Hv. unfold b_get. cbn [bvals bvars] in *. rewrite Hn.
          apply i_hull_mem; try (apply box_ok_get; auto).
          destruct H as [H|H]; [left|right]; eapply in_box_comp; eauto. congruence. }
      exact Hm.
    - intros c Fc Ha Hb i x Hx. cbn [bvals] in Hx. rewrite Hn in Hx. revert x Hx. apply i_hull_sub; try (apply box_ok_get; auto).
      + destruct (Nat.lt_ge_cases i (length c)) as [L|L].
        * rewrite Forall_forall in Fc. apply Fc, nth_In; auto.
        * rewrite nth_overflow by auto. exact I.
      + apply Ha.
      + apply Hb.
  Qed.

  Lemma set_union_In {A} (mem : A -> list A -> bool) (Hm : forall x l, mem x l = true <-> In x l) l m x :
    In x (set_union mem l m) <-> In x l \/ In x m.
  Proof.
    unfold set_union. revert l; induction m as [|y m IH]; intros l; cbn [fold_left In]; [tauto|].
    rewrite IH. destruct (mem y l) eqn:E.
    - apply Hm in E. split; [tauto|]. intros [H|[->|H]]; auto.
    - rewrite in_app_iff. cbn. tauto.
  Qed.

  Notation csem := (c_sem M D).
  Lemma csem_seq cs rho : fold_right (fun c' acc => csem c' rho /\ acc) True cs <-> Forall (fun c => csem c rho) cs.
  Proof. induction cs as [|a cs IH]; cbn; split; intros H; auto; [constructor; tauto|inversion H; subst; tauto]. Qed.
  Lemma csem_join cs rho : fold_right (fun c' acc => csem c' rho \/ acc) False cs <-> Exists (fun c => csem c rho) cs.
  Proof. induction cs as [|a cs IH]; cbn; split; intros H; [tauto|inversion H|destruct H; [apply Exists_cons_hd|apply Exists_cons_tl]; tauto|inversion H; subst; tauto]. Qed.
  Lemma cok_list vars cs : fold_right (fun c' acc => c_ok M D Orc vars c' /\ acc) True cs <-> Forall (c_ok M D Orc vars) cs.
  Proof. induction cs as [|a cs IH]; cbn; split; intros H; auto; [constructor; tauto|inversion H; subst; tauto]. Qed.

  Section Loops.
    Variable pr : contractor -> cstat -> option cstat.
    Variable vars : list var.
    Hypothesis Hpr : forall c s s', box_ok (cs_box s) -> bvars (cs_box s) = vars -> c_ok M D Orc vars c -> pr c s = Some s' -> keeps (csem c) s s'.

    Lemma seq_run_keeps cs s s' : box_ok (cs_box s) -> bvars (cs_box s) = vars -> Forall (c_ok M D Orc vars) cs -> seq_run pr cs s = Some s' ->
      keeps (fun rho => Forall (fun c => csem c rho) cs) s s'.
    Proof.
      revert s; induction cs as [|c cs IH]; intros s K Ev F; cbn [seq_run].
      - intros [= <-]. apply keeps_refl; auto.
      - inversion F; subst. destruct (pr c s) as [s1|] eqn:E; cbn [bind]; [|discriminate].
        pose proof (Hpr _ _ _ K eq_refl H1 E) as S. destruct (b_empty (cs_box s1)).
        + intros [= <-]. eapply keeps_weaken; [|exact S]. intros rho H. inversion H; auto.
        + intros E'. eapply keeps_trans; [|exact S|apply IH; auto].
          * intros rho H. inversion H; auto.
          * apply S.
          * rewrite (k_vars _ _ _ S). reflexivity.
    Qed.
    Lemma fix_loop_keeps n cs s s' : box_ok (cs_box s) -> bvars (cs_box s) = vars -> Forall (c_ok M D Orc vars) cs -> fix_loop term pr n cs s = Some s' ->
      keeps (fun rho => Forall (fun c => csem c rho) cs) s s'.
    Proof.
      revert s; induction n as [|n IH]; intros s K Ev F; cbn [fix_loop]; [discriminate|].
      destruct (seq_run pr cs s) as [s1|] eqn:E; cbn [bind]; [|discriminate].
      pose proof (seq_run_keeps _ _ _ K Ev F E) as S.
      destruct (b_empty (cs_box s1)); [intros [= <-]; auto|].
      destruct (term _ _); [intros [= <-]; auto|]. intros E'. eapply keeps_trans; [|exact S|apply IH; auto].
      - auto.
      - apply S.
      - rewrite (k_vars _ _ _ S). auto.
    Qed.

    Lemma out_keeps P s o : box_ok (cs_box s) -> keeps P s (cs_with_out s o).
    Proof. intros K. apply keeps_same; auto; cbn; apply incl_refl. Qed.

    Lemma wl_phase1_keeps all cs s wl s' wl' e (P : env -> Prop) : box_ok (cs_box s) -> bvars (cs_box s) = vars -> Forall (c_ok M D Orc vars) cs ->
      (forall rho c, In c cs -> P rho -> csem c rho) ->
      wl_phase1 pr all cs s wl = Some (s', wl', e) -> keeps P s s'.
    Proof.
      revert s wl; induction cs as [|c cs IH]; intros s wl K Ev F HP; cbn [wl_phase1].
      - intros [= <- _ _]. apply keeps_refl; auto.
      - inversion F; subst. destruct (pr c (cs_with_out s bits0)) as [s1|] eqn:E; cbn [bind]; [|discriminate].
        pose proof (Hpr _ (cs_with_out s bits0) _ K eq_refl H1 E) as S.
        assert (S2 : keeps P s s1). { eapply keeps_trans; [|apply (out_keeps (fun _ => True)); auto|exact S]. intros rho H; split; auto. apply HP; auto. left; auto. }
        destruct (b_empty (cs_box s1)); [intros [= <- _ _]; auto|].
        intros E'. eapply keeps_trans; [|exact S2|eapply IH; [apply S2| | | |exact E']]; auto.
        + rewrite (k_vars _ _ _ S2). auto.
        + intros rho c' Hc. apply HP. right; auto.
    Qed.
    Lemma wl_phase2_keeps n all s wl k s' : box_ok (cs_box s) -> bvars (cs_box s) = vars -> Forall (c_ok M D Orc vars) all ->
      wl_phase2 pr n all s wl k = Some s' -> keeps (fun rho => Forall (fun c => csem c rho) all) s s'.
    Proof.
      revert s wl k; induction n as [|n IH]; intros s wl k K Ev F; cbn [wl_phase2]; [discriminate|].
      destruct (nth_error all k) as [c|] eqn:Ek; [|discriminate]. cbv zeta.
      destruct (pr c (cs_with_out s bits0)) as [s1|] eqn:E; cbn [bind]; [|discriminate].
      apply nth_error_In in Ek. assert (Fc := F). rewrite Forall_forall in Fc.
      pose proof (Hpr _ (cs_with_out s bits0) _ K Ev (Fc _ Ek) E) as S.
      assert (S2 : keeps (fun rho => Forall (fun c => csem c rho) all) s s1).
      { eapply keeps_trans; [|apply (out_keeps (fun _ => True)); auto|exact S]. intros rho H; split; auto. rewrite Forall_forall in H. auto. }
      destruct (b_empty (cs_box s1)); [intros [= <-]; auto|].
      destruct (bits_find _ _ _); [|intros [= <-]; auto].
      assert (K1 := k_ok _ _ _ S2). assert (V1 : bvars (cs_box s1) = vars) by (rewrite (k_vars _ _ _ S2); auto).
      destruct (bits_find _ _ _); intros E'; (eapply keeps_trans; [|exact S2|eapply IH; eauto]; auto).
    Qed.
    Lemma wl_run_keeps n all s s' : box_ok (cs_box s) -> bvars (cs_box s) = vars -> Forall (c_ok M D Orc vars) all ->
      wl_run term pr n all s = Some s' -> keeps (fun rho => Forall (fun c => csem c rho) all) s s'.
    Proof.
      intros K Ev F. unfold wl_run. set (todo := match cs_bp s with None => all | Some i => _ end).
      assert (It : incl todo all). { unfold todo. destruct (cs_bp s); [intros x Hx; apply filter_In in Hx; tauto|apply incl_refl]. }
      destruct (wl_phase1 pr all todo s bits0) as [[[s1 wl] e]|] eqn:E; cbn [bind]; [|discriminate].
      assert (S : keeps (fun rho => Forall (fun c => csem c rho) all) s s1).
      { eapply wl_phase1_keeps; [exact K|exact Ev| | |exact E].
        - apply Forall_forall. intros x Hx. rewrite Forall_forall in F. auto.
        - intros rho c Hc H. rewrite Forall_forall in H. auto. }
      destruct e; [intros [= <-]; auto|]. destruct (bits_find _ _ _); [|intros [= <-]; auto].
      destruct (term _ _); [intros [= <-]; auto|]. intros E'. eapply keeps_trans; [|exact S|eapply wl_phase2_keeps; [apply S| |exact F|exact E']]; auto.
      rewrite (k_vars _ _ _ S). auto.
    Qed.

    Lemma join_run_inv saved cs acc s' (P : env -> Prop) : box_ok (cs_box saved) -> bvars (cs_box saved) = vars -> Forall (c_ok M D Orc vars) cs ->
      keeps P saved acc -> join_run pr saved cs acc = Some s' ->
      keeps (fun rho => P rho \/ Exists (fun c => csem c rho) cs) saved s'.
    Proof.
      intros K Ev. revert acc P; induction cs as [|c cs IH]; intros acc P F S; cbn [join_run].
      - intros [= <-]. eapply keeps_weaken; [|exact S]. intros rho [H|H]; auto. inversion H.
      - inversion F; subst. destruct (pr c saved) as [t|] eqn:E; cbn [bind]; [|discriminate].
        pose proof (Hpr _ _ _ K eq_refl H1 E) as T. intros E'.
        eapply keeps_weaken; [|apply (IH (cs_join acc t) (fun rho => P rho \/ csem c rho)); auto].
        + intros rho [H|H]; auto. inversion H; auto.
        + destruct S as [A1 A2 A3 A4 A5 A6 A7], T as [B1 B2 B3 B4 B5 B6 B7].
          destruct (b_union_spec (cs_box acc) (cs_box t)) as (U1 & U2 & U3 & U4); auto; [congruence|].
          constructor; cbn [cs_join cs_box cs_bp cs_used cs_wit].
          * rewrite U1. auto.
          * auto.
          * auto.
          * apply U4; auto. apply K.
          * intros rho W HB [H|H]; apply U3; auto.
          * intros x Hx. apply set_union_In; [apply mem_form_In|]. left; auto.
          * intros x Hx. apply set_union_In; [apply mem_var_In|]. left; auto.
    Qed.
  End Loops.

  Theorem prune_keeps n : forall c s s', box_ok (cs_box s) -> c_ok M D Orc (bvars (cs_box s)) c ->
    prune Orc term n c s = Some s' -> keeps (csem c) s s'.
  Proof.
    induction n as [|n IH]; intros c s s' K Hc; cbn [prune]; [discriminate|].
    assert (Hpr : forall vars c s s', box_ok (cs_box s) -> bvars (cs_box s) = vars -> c_ok M D Orc vars c -> prune Orc term n c s = Some s' -> keeps (csem c) s s').
    { intros vars c0 s0 s0' K0 <- Hc0 E0. apply IH; auto. }
    destruct c as [|idx|cs|f|fs|f|cs|cs|cs]; cbn [c_ok c_sem] in *.
    - intros [= <-]. apply keeps_refl; auto.
    - intros [= <-]. apply prune_int_keeps; auto.
    - intros E. apply cok_list in Hc. eapply keeps_weaken; [|eapply seq_run_keeps; eauto]. intros rho H; apply csem_seq; auto.
    - intros [= <-]. apply prune_fwd_keeps; tauto.
    - intros [= <-]. apply prune_poly_keeps; tauto.
    - apply prune_forall_keeps; tauto.
    - intros E. apply cok_list in Hc. eapply keeps_weaken; [|eapply fix_loop_keeps; eauto]. intros rho H; apply csem_seq; auto.
    - intros E. apply cok_list in Hc. eapply keeps_weaken; [|eapply wl_run_keeps; eauto]. intros rho H; apply csem_seq; auto.
    - intros E. apply cok_list in Hc. eapply keeps_weaken; [|eapply (join_run_inv (prune Orc term n) (bvars (cs_box s)) (Hpr _) s cs _ s' (fun _ => False)); eauto].
      + intros rho H; right; apply csem_join; auto.
      + constructor; cbn; auto; try apply incl_refl.
        * apply b_set_empty_ok; auto.
        * apply iv_sub_empty.
        * intros; contradiction.
  Qed.
End Prune.

Lemma mk_integer_ok M D Orc b : c_ok M D Orc (bvars b) (mk_integer b).
Proof.
  unfold mk_integer. destruct (existsb _ _); [|exact I]. cbn [c_ok]. intros i Hi. unfold int_indexes in Hi. apply filter_In in Hi.
  destruct Hi as [_ Hi]. destruct (nth_error (bvars b) i) as [v|]; [eauto|discriminate].
Qed.
