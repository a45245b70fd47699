(** * Pruning either empties a box or leaves every component non-empty, and touches only its own variables (behind C33)

    [prune_keeps] speaks of well-typed assignments because rounding to integers does; contractors without [CInteger] keep every solution. *)
From Coq Require Import ZArith Reals Lia List Bool Arith.
From Flocq Require Import IEEE754.BinarySingleNaN.
From Verif Require Import Dbl DblProofs Syntax Sem MathConv MathConvProofs Interval IntervalProofs IEval Contr ContrProofs ExplainProofs TheoryUsed TheoryProofs.
Import ListNotations.

Definition all_empty (b : box) : Prop := Forall (fun i => i = IEmpty) (bvals b).
Lemma all_empty_b b : box_ok b -> all_empty b -> b_empty b = true.
Proof. intros (_ & L & _) F. unfold b_empty, all_empty in *. destruct (bvals b) as [|i l] eqn:E; [cbn [length] in L; lia|]. inversion F; subst. reflexivity. Qed.
Lemma set_empty_all b : all_empty (b_set_empty b).
Proof. unfold all_empty, b_set_empty. cbn [bvals]. apply Forall_forall. intros x Hx. apply in_map_iff in Hx. destruct Hx as (_ & <- & _). reflexivity. Qed.

Section Sem0.
  Variables (M : interp) (D : pdom).
  (** The assignments a contractor keeps whatever their types. *)
  Fixpoint c_sem0 (c : contractor) (rho : env) : Prop :=
    match c with
    | CId => True
    | CInteger _ => False
    | CFwd f | CForall f => solves M D f rho
    | CPoly fs => forall f, In f fs -> solves M D f rho
    | CSeq cs | CFix cs | CWork cs => fold_right (fun c' acc => c_sem0 c' rho /\ acc) True cs
    | CJoin cs => fold_right (fun c' acc => c_sem0 c' rho \/ acc) False cs
    end.
  Fixpoint c_noint (c : contractor) : Prop :=
    match c with
    | CInteger _ => False
    | CSeq cs | CFix cs | CWork cs | CJoin cs => fold_right (fun c' acc => c_noint c' /\ acc) True cs
    | _ => True
    end.
  Lemma sem0_sem : forall c rho, c_noint c -> c_sem M D c rho -> c_sem0 c rho.
  Proof.
    fix IH 1. intros c rho. destruct c as [|idx|cs|f|fs|f|cs|cs|cs]; cbn [c_noint c_sem c_sem0]; auto.
    - induction cs as [|c cs I]; cbn [fold_right]; auto. intros [A B] [C E]. split; [apply IH; auto|apply I; auto].
    - induction cs as [|c cs I]; cbn [fold_right]; auto. intros [A B] [C E]. split; [apply IH; auto|apply I; auto].
    - induction cs as [|c cs I]; cbn [fold_right]; auto. intros [A B] [C E]. split; [apply IH; auto|apply I; auto].
    - induction cs as [|c cs I]; cbn [fold_right]; auto. intros [A B] [C|E]; [left; apply IH; auto|right; apply I; auto].
  Qed.

  Variables (Orc : oracles) (term : list ival -> list ival -> bool).
  Variable P : var -> Prop.                                          (* the variables that may change *)
  Variable vars : list var.
  Fixpoint c_in (c : contractor) : Prop :=
    match c with
    | CId => True
    | CInteger idx => forall i v, In i idx -> nth_error vars i = Some v -> P v
    | CFwd f | CForall f => forall v, In v (fvF f) -> P v
    | CPoly fs => forall f v, In f fs -> In v (fvF f) -> P v
    | CSeq cs | CFix cs | CWork cs | CJoin cs => fold_right (fun c' acc => c_in c' /\ acc) True cs
    end.
  Lemma cin_list cs : fold_right (fun c' acc => c_in c' /\ acc) True cs <-> Forall c_in cs.
  Proof. induction cs as [|a cs IH]; cbn; split; intros H; auto; [constructor; tauto|inversion H; subst; tauto]. Qed.
  Lemma sem0_seq cs rho : fold_right (fun c' acc => c_sem0 c' rho /\ acc) True cs <-> Forall (fun c => c_sem0 c rho) cs.
  Proof. induction cs as [|a cs IH]; cbn; split; intros H; auto; [constructor; tauto|inversion H; subst; tauto]. Qed.
  Lemma sem0_join cs rho : fold_right (fun c' acc => c_sem0 c' rho \/ acc) False cs <-> Exists (fun c => c_sem0 c rho) cs.
  Proof. induction cs as [|a cs IH]; cbn; split; intros H; [tauto|inversion H|destruct H; [apply Exists_cons_hd|apply Exists_cons_tl]; tauto|inversion H; subst; tauto]. Qed.

  (** [b'] results from the full box [b], keeping the assignments in [W]. *)
  Record fr (W : env -> Prop) (b b' : box) : Prop := {
    fr_vars : bvars b' = bvars b;
    fr_ok : box_ok b';
    fr_keep : forall rho, in_box rho b -> W rho -> in_box rho b';
    fr_aon : all_empty b' \/ (b_full b' /\ forall i v, nth_error (bvars b) i = Some v -> ~ P v -> b_get b' i = b_get b i) }.
  Lemma fr_refl W b : box_ok b -> b_full b -> fr W b b.
  Proof. intros K F. split; auto. Qed.
  Lemma fr_weaken (W W' : env -> Prop) b b' : (forall rho, W' rho -> W rho) -> fr W b b' -> fr W' b b'.
  Proof. intros H [A B C E]. split; auto. Qed.
  Lemma fr_full W b b' : fr W b b' -> b_empty b' = false -> b_full b'.
  Proof. intros [A B C [E|[E _]]] H; auto. rewrite (all_empty_b b' B E) in H. discriminate. Qed.
  Lemma fr_trans (W W1 W2 : env -> Prop) b b1 b2 : (forall rho, W rho -> W1 rho /\ W2 rho) -> fr W1 b b1 -> fr W2 b1 b2 -> fr W b b2.
  Proof.
    intros H [A1 B1 C1 E1] [A2 B2 C2 E2]. split.
    - congruence.
    - exact B2.
    - intros rho R Hw. destruct (H rho Hw). auto.
    - destruct E2 as [E2|[F2 E2]]; [left; exact E2|]. destruct E1 as [E1|[F1 E1]].
      + right. split; [exact F2|]. intros i v Hv NP.
        exfalso. pose proof (full_get b2 i v B2 F2) as X. rewrite A2, A1 in X. specialize (X Hv).
        assert (Y : b_get b1 i = IEmpty).
        { unfold b_get. destruct (nth_in_or_default i (bvals b1) IEmpty) as [Hi|Hi]; [|exact Hi]. unfold all_empty in E1. rewrite Forall_forall in E1. apply E1; exact Hi. }
        rewrite (E2 i v) in X by (rewrite ?A1; auto). rewrite Y in X. discriminate X.
      + right. split; [exact F2|]. intros i v Hv NP. rewrite (E2 i v) by (rewrite ?A1; auto). apply (E1 i v); auto.
  Qed.

  Lemma step_fr fs b iv : box_ok b -> b_full b -> step_ok M D fs b iv -> (forall f v, In f fs -> In v (fvF f) -> P v) ->
    fr (fun rho => forall f, In f fs -> solves M D f rho) b (mkBox (bvars b) iv).
  Proof.
    intros K F (A & B & C & E & G) H. split.
    - reflexivity.
    - apply (box_ok_mk b); auto.
    - exact E.
    - destruct (G F) as [X|[X Y]]; [left; exact X|right]. split; [exact X|]. intros i v Hv NP. apply (Y i v Hv). intros f Hf Hin. exact (NP (H f v Hf Hin)).
  Qed.

  Lemma fwd_fr f s : box_ok (cs_box s) -> b_full (cs_box s) -> fwd_ok M D Orc f (bvars (cs_box s)) -> (forall v, In v (fvF f) -> P v) ->
    fr (solves M D f) (cs_box s) (cs_box (prune_fwd Orc f s)).
  Proof.
    intros K F H HP. destruct (H _ K eq_refl) as [Hs _]. unfold prune_fwd. destruct (o_bwd Orc f (cs_box s)) as [inner iv]. cbn [snd] in Hs.
    assert (X : fr (solves M D f) (cs_box s) (mkBox (bvars (cs_box s)) iv)).
    { eapply fr_weaken; [|apply (step_fr [f]); auto]. - intros rho Hr g [<-|[]]; exact Hr. - intros g v [<-|[]]; auto. }
    destruct inner; [exact X|]. destruct (b_empty _); [rewrite add_used_box; exact X|]. destruct (changed_bits _ _ _ _); [exact X|rewrite add_used_box; exact X].
  Qed.
  Lemma poly_fr fs s : box_ok (cs_box s) -> b_full (cs_box s) -> poly_ok M D Orc fs (bvars (cs_box s)) -> (forall f v, In f fs -> In v (fvF f) -> P v) ->
    fr (fun rho => forall f, In f fs -> solves M D f rho) (cs_box s) (cs_box (prune_poly Orc fs s)).
  Proof.
    intros K F H HP. pose proof (step_fr fs (cs_box s) _ K F (H _ K eq_refl) HP) as X. unfold prune_poly. cbv zeta.
    destruct (b_empty _); [rewrite (proj1 (add_used_list_same fs _)); exact X|]. destruct (changed_bits _ _ _ _); [exact X|rewrite (proj1 (add_used_list_same fs _)); exact X].
  Qed.
  Lemma forall_fr f s s' : box_ok (cs_box s) -> b_full (cs_box s) -> fa_ok M D Orc f (bvars (cs_box s)) -> (forall v, In v (fvF f) -> P v) ->
    prune_forall Orc f s = Some s' -> fr (solves M D f) (cs_box s) (cs_box s').
  Proof.
    intros K F H HP. unfold prune_forall. destruct (o_fa Orc f (cs_box s)) as [iv|] eqn:E; cbn [bind]; [|discriminate]. intros [= <-].
    assert (X : fr (solves M D f) (cs_box s) (mkBox (bvars (cs_box s)) iv)).
    { eapply fr_weaken; [|apply (step_fr [f]); eauto]. - intros rho Hr g [<-|[]]; exact Hr. - intros g v [<-|[]]; auto. }
    destruct (b_empty _); rewrite add_used_box; exact X.
  Qed.

  Lemma int_fr idx : forall s, box_ok (cs_box s) -> b_full (cs_box s) -> bvars (cs_box s) = vars -> (forall i v, In i idx -> nth_error vars i = Some v -> P v) ->
    fr (fun _ => False) (cs_box s) (cs_box (prune_int idx s)).
  Proof.
    induction idx as [|i idx IH]; intros s K F Ev HP; cbn [prune_int]; [apply fr_refl; auto|].
    assert (HP' : forall j v, In j idx -> nth_error vars j = Some v -> P v) by (intros j v Hj; apply HP; right; exact Hj).
    destruct (b_get (cs_box s) i) as [|l u] eqn:Eg; [apply IH; auto|].
    destruct (negb (is_integer l) || negb (is_integer u)); [|apply IH; auto].
    destruct (dle (dceil l) (dfloor u)) eqn:El.
    - set (s1 := cs_with_out _ _).
      assert (Fn : i_empty (mk_ival (dceil l) (dfloor u)) = false).
      { assert (Kg : i_ok (IV l u)) by (rewrite <- Eg; apply box_ok_get; auto). apply has_int_nonempty. apply round_has_int; auto. }
      assert (X : fr (fun _ => False) (cs_box s) (cs_box s1)).
      { split; cbn [s1 cs_with_out cs_with_box cs_box].
        - reflexivity.
        - apply b_set_ok; auto. apply mk_ival_ok.
        - intros rho _ [].
        - right. split; [apply b_set_full; auto|]. intros j v Hv NP. unfold b_get. cbn [b_set bvals]. destruct (Nat.eq_dec i j) as [->|N].
          + exfalso. apply NP. apply (HP j); [left; reflexivity|congruence].
          + apply nth_upd_nth_ne; auto. }
      eapply fr_trans; [|exact X|apply IH]; auto.
      + apply X.
      + unfold s1. cbn [cs_with_out cs_with_box cs_box]. apply b_set_full; auto.
    - assert (X : fr (fun _ => False) (cs_box s) (b_set_empty (cs_box s))).
      { split; [reflexivity|apply b_set_empty_ok; exact K|intros rho _ []|left; apply set_empty_all]. }
      destruct (nth_error _ i); exact X.
  Qed.

  Lemma hull_same x : i_hull x x = x.
  Proof. destruct x as [|l u]; cbn [i_hull]; [reflexivity|]. unfold dminf, dmaxf. f_equal; match goal with |- context [if ?c then _ else _] => destruct c end; reflexivity. Qed.
  Lemma fr_union W1 W2 b a t : fr W1 b a -> fr W2 b t -> fr (fun rho => W1 rho \/ W2 rho) b (b_union a t).
  Proof.
    intros X1 X2. pose proof (fr_full _ _ _ X1) as Ga. pose proof (fr_full _ _ _ X2) as Gt. destruct X1 as [A1 B1 C1 E1], X2 as [A2 B2 C2 E2].
    destruct (b_union_spec a t B1 B2) as (U1 & U2 & U3 & U4); [congruence|]. split; [congruence|exact U2| |].
    { intros rho H [Hw|Hw]; apply U3; auto. }
    unfold b_union. destruct (b_empty t) eqn:Et; [exact E1|]. specialize (Gt eq_refl).
    destruct E2 as [E2|[F2 E2]]; [rewrite (all_empty_b t B2 E2) in Et; discriminate|].
    destruct (b_empty a) eqn:Ea; [right; split; [exact F2|exact E2]|]. destruct E1 as [E1|[F1 E1]]; [rewrite (all_empty_b a B1 E1) in Ea; discriminate|].
    right. split.
    - unfold b_full in *. cbn [bvals]. apply Forall_forall. intros x Hx. apply in_map_iff in Hx. destruct Hx as ([p q] & <- & Hp). cbn [fst snd].
      pose proof (in_combine_l _ _ _ _ Hp) as Hl. pose proof (in_combine_r _ _ _ _ Hp) as Hr. rewrite Forall_forall in F1, F2. apply F1 in Hl. apply F2 in Hr.
      destruct p; [discriminate|]. destruct q; [discriminate|]. reflexivity.
    - intros i v Hv NP. unfold b_get at 1. cbn [bvals]. rewrite (nth_map_combine _ _ _ IEmpty IEmpty); [|destruct B1 as (_ & L1 & _), B2 as (_ & L2 & _); congruence|reflexivity].
      cbn [fst snd]. fold (b_get a i) (b_get t i). rewrite (E1 i v Hv NP), (E2 i v Hv NP). apply hull_same.
  Qed.

  Section Loops.
    Variable pr : contractor -> cstat -> option cstat.
    Hypothesis Hpr : forall c s s', box_ok (cs_box s) -> b_full (cs_box s) -> bvars (cs_box s) = vars -> c_ok M D Orc vars c -> c_in c -> pr c s = Some s' -> fr (c_sem0 c) (cs_box s) (cs_box s').
    Notation okc := (fun c => c_ok M D Orc vars c /\ c_in c).
    Notation W cs := (fun rho => Forall (fun c => c_sem0 c rho) cs).

    Lemma seq_fr cs : forall s s', box_ok (cs_box s) -> b_full (cs_box s) -> bvars (cs_box s) = vars -> Forall okc cs -> seq_run pr cs s = Some s' -> fr (W cs) (cs_box s) (cs_box s').
    Proof.
      induction cs as [|c cs IH]; intros s s' K Fl Ev F; cbn [seq_run].
      - intros [= <-]. apply fr_refl; auto.
      - inversion F as [|? ? [H1 H1'] H2]; subst. destruct (pr c s) as [s1|] eqn:E; cbn [bind]; [|discriminate].
        pose proof (Hpr _ _ _ K Fl Ev H1 H1' E) as X. destruct (b_empty (cs_box s1)) eqn:Eb.
        + intros [= <-]. eapply fr_weaken; [|exact X]. intros rho H. inversion H; auto.
        + intros E'. eapply fr_trans; [|exact X|apply (IH s1); auto].
          * intros rho H. inversion H; auto.
          * apply X.
          * exact (fr_full _ _ _ X Eb).
          * rewrite (fr_vars _ _ _ X). exact Ev.
    Qed.
    Lemma fix_fr n cs : forall s s', box_ok (cs_box s) -> b_full (cs_box s) -> bvars (cs_box s) = vars -> Forall okc cs -> fix_loop term pr n cs s = Some s' -> fr (W cs) (cs_box s) (cs_box s').
    Proof.
      induction n as [|n IH]; intros s s' K Fl Ev F; cbn [fix_loop]; [discriminate|].
      destruct (seq_run pr cs s) as [s1|] eqn:E; cbn [bind]; [|discriminate]. pose proof (seq_fr _ _ _ K Fl Ev F E) as X.
      destruct (b_empty (cs_box s1)) eqn:Eb; [intros [= <-]; auto|]. destruct (term _ _); [intros [= <-]; auto|].
      intros E'. eapply fr_trans; [|exact X|apply (IH s1); auto]; auto.
      - apply X.
      - exact (fr_full _ _ _ X Eb).
      - rewrite (fr_vars _ _ _ X). exact Ev.
    Qed.
    Lemma wl1_fr all cs (V : env -> Prop) : (forall rho c, In c cs -> V rho -> c_sem0 c rho) -> forall s wl s' wl' e, box_ok (cs_box s) -> b_full (cs_box s) -> bvars (cs_box s) = vars -> Forall okc cs ->
      wl_phase1 pr all cs s wl = Some (s', wl', e) -> fr V (cs_box s) (cs_box s') /\ (e = false -> b_full (cs_box s')).
    Proof.
      induction cs as [|c cs IH]; intros HV s wl s' wl' e K Fl Ev F; cbn [wl_phase1].
      - intros [= <- _ <-]. split; [apply fr_refl; auto|auto].
      - inversion F as [|? ? [H1 H1'] H2]; subst. destruct (pr c (cs_with_out s bits0)) as [s1|] eqn:E; cbn [bind]; [|discriminate].
        pose proof (Hpr _ (cs_with_out s bits0) _ K Fl Ev H1 H1' E) as X. cbn [cs_with_out cs_box] in X.
        assert (X' : fr V (cs_box s) (cs_box s1)) by (eapply fr_weaken; [|exact X]; intros rho Hr; apply HV; auto; left; auto).
        destruct (b_empty (cs_box s1)) eqn:Eb; [intros [= <- _ <-]; split; [exact X'|discriminate]|].
        intros E'. assert (V1 : bvars (cs_box s1) = vars) by (rewrite (fr_vars _ _ _ X); exact Ev).
        destruct (IH (fun rho c' Hc => HV rho c' (or_intror Hc)) _ _ _ _ _ (fr_ok _ _ _ X) (fr_full _ _ _ X Eb) V1 H2 E') as [Y1 Y2].
        split; [|exact Y2]. eapply fr_trans; [|exact X'|exact Y1]. auto.
    Qed.
    Lemma wl2_fr n all : Forall okc all -> forall s wl k s', box_ok (cs_box s) -> b_full (cs_box s) -> bvars (cs_box s) = vars -> wl_phase2 pr n all s wl k = Some s' -> fr (W all) (cs_box s) (cs_box s').
    Proof.
      intros F. induction n as [|n IH]; intros s wl k s' K Fl Ev; cbn [wl_phase2]; [discriminate|].
      destruct (nth_error all k) as [c|] eqn:Ek; [|discriminate]. cbv zeta.
      destruct (pr c (cs_with_out s bits0)) as [s1|] eqn:E; cbn [bind]; [|discriminate].
      apply nth_error_In in Ek. assert (Fc := F). rewrite Forall_forall in Fc. destruct (Fc _ Ek) as [H1 H1'].
      pose proof (Hpr _ (cs_with_out s bits0) _ K Fl Ev H1 H1' E) as X. cbn [cs_with_out cs_box] in X.
      assert (X' : fr (W all) (cs_box s) (cs_box s1)) by (eapply fr_weaken; [|exact X]; intros rho Hr; rewrite Forall_forall in Hr; auto).
      destruct (b_empty (cs_box s1)) eqn:Eb; [intros [= <-]; auto|].
      destruct (bits_find _ _ _); [|intros [= <-]; auto].
      assert (K1 := fr_ok _ _ _ X). assert (V1 : bvars (cs_box s1) = vars) by (rewrite (fr_vars _ _ _ X); auto). pose proof (fr_full _ _ _ X Eb) as Fl1.
      destruct (bits_find _ _ _); intros E'; (eapply fr_trans; [|exact X'|eapply IH; eauto]; auto).
    Qed.
    Lemma wl_fr n all s s' : Forall okc all -> box_ok (cs_box s) -> b_full (cs_box s) -> bvars (cs_box s) = vars -> wl_run term pr n all s = Some s' -> fr (W all) (cs_box s) (cs_box s').
    Proof.
      intros F K Fl Ev. unfold wl_run. set (todo := match cs_bp s with None => all | Some i => _ end).
      assert (It : incl todo all). { unfold todo. destruct (cs_bp s); [intros x Hx; apply filter_In in Hx; tauto|apply incl_refl]. }
      destruct (wl_phase1 pr all todo s bits0) as [[[s1 wl] e]|] eqn:E; cbn [bind]; [|discriminate].
      assert (HV : forall rho c, In c todo -> W all rho -> c_sem0 c rho) by (intros rho c Hc H; rewrite Forall_forall in H; auto).
      assert (Ft : Forall okc todo) by (apply Forall_forall; intros x Hx; rewrite Forall_forall in F; auto).
      destruct (wl1_fr all todo (W all) HV _ _ _ _ _ K Fl Ev Ft E) as [X Fe].
      destruct e; [intros [= <-]; auto|]. destruct (bits_find _ _ _); [|intros [= <-]; auto].
      destruct (term _ _); [intros [= <-]; auto|]. intros E'. eapply fr_trans; [|exact X|eapply wl2_fr; [exact F|apply X|auto| |exact E']]; auto.
      rewrite (fr_vars _ _ _ X). exact Ev.
    Qed.
    Lemma join_fr saved cs : box_ok (cs_box saved) -> b_full (cs_box saved) -> bvars (cs_box saved) = vars -> Forall okc cs -> forall acc s' V, fr V (cs_box saved) (cs_box acc) ->
      join_run pr saved cs acc = Some s' -> fr (fun rho => V rho \/ Exists (fun c => c_sem0 c rho) cs) (cs_box saved) (cs_box s').
    Proof.
      intros K Fl Ev. induction cs as [|c cs IH]; intros F acc s' V X; cbn [join_run].
      - intros [= <-]. eapply fr_weaken; [|exact X]. intros rho [H|H]; auto. inversion H.
      - inversion F as [|? ? [H1 H1'] H2]; subst. destruct (pr c saved) as [t|] eqn:E; cbn [bind]; [|discriminate].
        pose proof (Hpr _ _ _ K Fl Ev H1 H1' E) as Y. intros E'.
        eapply fr_weaken; [|apply (IH H2 (cs_join acc t) s' (fun rho => V rho \/ c_sem0 c rho)); [exact (fr_union _ _ _ _ _ X Y)|exact E']].
        intros rho [H|H]; auto. inversion H; auto.
    Qed.
  End Loops.

  Theorem prune_fr n : forall c s s', box_ok (cs_box s) -> b_full (cs_box s) -> bvars (cs_box s) = vars -> c_ok M D Orc vars c -> c_in c ->
    prune Orc term n c s = Some s' -> fr (c_sem0 c) (cs_box s) (cs_box s').
  Proof.
    induction n as [|n IH]; intros c s s' K Fl Ev Hc Hi; cbn [prune]; [discriminate|].
    assert (Z : forall cs, Forall (c_ok M D Orc vars) cs -> Forall c_in cs -> Forall (fun c => c_ok M D Orc vars c /\ c_in c) cs).
    { intros cs A B. apply Forall_forall. intros x Hx. rewrite Forall_forall in A, B. auto. }
    destruct c as [|idx|cs|f|fs|f|cs|cs|cs]; cbn [c_ok c_sem0 c_in] in *.
    - intros [= <-]. apply fr_refl; auto.
    - intros [= <-]. apply int_fr; auto.
    - intros E. apply cok_list in Hc. apply cin_list in Hi. eapply fr_weaken; [|exact (seq_fr _ IH cs s s' K Fl Ev (Z cs Hc Hi) E)]. intros rho H; apply sem0_seq; auto.
    - intros [= <-]. apply fwd_fr; auto. rewrite Ev. apply Hc.
    - intros [= <-]. apply poly_fr; auto. rewrite Ev. apply Hc.
    - intros E. eapply forall_fr; eauto. rewrite Ev. apply Hc.
    - intros E. apply cok_list in Hc. apply cin_list in Hi. eapply fr_weaken; [|exact (fix_fr _ IH n cs s s' K Fl Ev (Z cs Hc Hi) E)]. intros rho H; apply sem0_seq; auto.
    - intros E. apply cok_list in Hc. apply cin_list in Hi. eapply fr_weaken; [|exact (wl_fr _ IH n cs s s' (Z cs Hc Hi) K Fl Ev E)]. intros rho H; apply sem0_seq; auto.
    - intros E. apply cok_list in Hc. apply cin_list in Hi.
      eapply fr_weaken; [|eapply (join_fr (prune Orc term n) IH s cs K Fl Ev (Z cs Hc Hi) _ s' (fun _ => False)); [|exact E]].
      + intros rho H; right; apply sem0_join; auto.
      + split; cbn [cs_with_box cs_box]; [reflexivity|apply b_set_empty_ok; auto|intros rho _ []|left; apply set_empty_all].
  Qed.
End Sem0.
