From Coq Require Import ZArith Reals List Bool Lia.
From Verif Require Import Dbl Syntax Sem SemProofs FormulaCons FormulaConsProofs SpecForm Nnf NnfProofs
  PredAbs PredAbsProofs Tseitin TseitinProofs.
Import ListNotations.

Lemma cons_unfolded : forall fold op e1 e2 f g fs vs,
  unfolded fold (mk_rel fold op e1 e2) /\
  (unfolded fold f -> unfolded fold g -> unfolded fold (mk_and f g) /\ unfolded fold (mk_or f g)) /\
  (unfolded fold f -> unfolded fold (mk_not f) /\ unfolded fold (mk_forall vs f)) /\
  ((forall h, In h fs -> unfolded fold h) -> unfolded fold (mk_conj fs) /\ unfolded fold (mk_disj fs)).
Proof.
  intros. unfold unfolded. split; [|split; [|split]].
  - unfold mk_rel. destruct (fold e1 e2) eqn:E; [destruct (relop_on op d); constructor|]. now apply ro_rel.
  - intros H1 H2. split.
    + apply mk_and_pres; auto; try (now constructor). apply ro_and_inv.
    + apply mk_or_pres; auto; try (now constructor). apply ro_or_inv.
  - intros H. split; [now apply mk_not_ro|]. unfold mk_forall. now constructor.
  - intros H. split.
    + apply mk_conj_pres; auto; try (now constructor). apply ro_and_inv.
    + apply mk_disj_pres; auto; try (now constructor). apply ro_or_inv.
Qed.

Lemma cons_all : forall M rho f g fs,
  (holds M (mk_and f g) rho <-> holds M f rho /\ holds M g rho) /\
  (holds M (mk_or f g) rho <-> holds M f rho \/ holds M g rho) /\
  (holds M (mk_conj fs) rho <-> forall h, In h fs -> holds M h rho) /\
  (holds M (mk_disj fs) rho <-> exists h, In h fs /\ holds M h rho) /\
  (holds M (mk_not f) rho <-> ~ holds M f rho) /\
  (holds M (mk_imply f g) rho <-> (holds M f rho -> holds M g rho)) /\
  (holds M (mk_iff f g) rho <-> (holds M f rho <-> holds M g rho)) /\
  (holds M (mk_feq f g) rho <-> (holds M f rho <-> holds M g rho)) /\
  (holds M (mk_fneq f g) rho <-> ~ (holds M f rho <-> holds M g rho)).
Proof.
  intros. split; [apply mk_and_holds|]. split; [apply mk_or_holds|]. split; [apply mk_conj_holds|].
  split; [apply mk_disj_holds|]. split; [apply mk_not_holds|]. split; [apply mk_imply_holds|].
  split; [apply mk_iff_holds|]. split; [apply mk_feq_holds|apply mk_fneq_holds].
Qed.

Section PA.
  Variable M : interp.
  Variable fold : expr -> expr -> option dbl.

  Lemma pa_newids s s' f g : pa_visit fold f s = (g, s') ->
    forall b a, In (b, a) (pa_map s') -> In (b, a) (pa_map s) \/ pa_next s <= vid b.
  Proof.
    assert (At : forall f s g s', pa_atomic f s = (g, s') -> pa_next s <= pa_next s' /\
       forall b a, In (b, a) (pa_map s') -> In (b, a) (pa_map s) \/ pa_next s <= vid b).
    { intros f0 s0 g0 s0' E. unfold pa_atomic in E. destruct (pa_find f0 s0); injection E as <- <-; simpl; (split; [lia|]); auto.
      intros b a [H|H]; auto. injection H as <- <-. right; simpl; lia. }
    assert (NAt : forall f s g s', pa_neg_atomic f s = (g, s') -> pa_next s <= pa_next s' /\
       forall b a, In (b, a) (pa_map s') -> In (b, a) (pa_map s) \/ pa_next s <= vid b).
    { intros f0 s0 g0 s0' E. unfold pa_neg_atomic in E. destruct (pa_atomic f0 s0) as [g1 s1] eqn:E1. injection E as <- <-. eauto. }
    cut (pa_visit fold f s = (g, s') -> pa_next s <= pa_next s' /\
       forall b a, In (b, a) (pa_map s') -> In (b, a) (pa_map s) \/ pa_next s <= vid b).
    { intros H E. apply H; auto. }
    revert s g s'.
    assert (Sm : forall fs, (forall x, In x fs -> forall s g s', pa_visit fold x s = (g, s') -> pa_next s <= pa_next s' /\
        forall b a, In (b, a) (pa_map s') -> In (b, a) (pa_map s) \/ pa_next s <= vid b) ->
      forall s r s', smap (pa_visit fold) fs s = (r, s') -> pa_next s <= pa_next s' /\
        forall b a, In (b, a) (pa_map s') -> In (b, a) (pa_map s) \/ pa_next s <= vid b).
    { induction fs as [|x fs IH]; intros H s r s' E; simpl in E; [injection E as <- <-; auto|].
      destruct (pa_visit fold x s) as [x' s1] eqn:E1. destruct (smap (pa_visit fold) fs s1) as [r2 s2] eqn:E2.
      injection E as <- <-. destruct (H x (or_introl eq_refl) _ _ _ E1) as [A1 A2].
      destruct (IH (fun y Hy => H y (or_intror Hy)) _ _ _ E2) as [B1 B2]. split; [lia|].
      intros b a Hb. destruct (B2 b a Hb); [|right; lia]. apply A2. auto. }
    induction f as [| | v | op a b | fs IH | fs IH | h IH | vs h IH] using formula_ind'; intros s g s' E;
      cbn [pa_visit] in E;
      (destruct (pa_find _ s); [injection E as <- <-; split; [lia|auto]|]);
      try (injection E as <- <-; split; [lia|auto]; fail).
    - destruct op; eauto.
    - rewrite Forall_forall in IH. destruct (smap (pa_visit fold) fs s) as [r s1] eqn:E1. injection E as <- <-. eapply Sm; eauto.
    - rewrite Forall_forall in IH. destruct (smap (pa_visit fold) fs s) as [r s1] eqn:E1. injection E as <- <-. eapply Sm; eauto.
    - destruct (pa_visit fold h s) as [g1 s1] eqn:E1. injection E as <- <-. eauto.
    - eauto.
  Qed.

  Lemma pa_all_newids fs : forall s gs s', (forall f, In f fs -> unfolded fold f) -> pa_ok fold s ->
    pa_convert_all fold fs s = (gs, s') ->
    forall b a, In (b, a) (pa_map s') -> In (b, a) (pa_map s) \/ pa_next s <= vid b.
  Proof.
    induction fs as [|f fs IH]; intros s gs s' U K E b a H; simpl in E.
    - injection E as <- <-. auto.
    - destruct (pa_convert fold f s) as [g s1] eqn:E1. destruct (pa_convert_all fold fs s1) as [gs2 s2] eqn:E2.
      injection E as <- <-.
      destruct (pa_visit_spec M fold f (U f (or_introl eq_refl)) s g s1 K E1) as (K1 & L1 & _).
      destruct (IH s1 gs2 s2 (fun x Hx => U x (or_intror Hx)) K1 E2 b a H) as [C|C].
      + eapply pa_newids; eauto.
      + right. destruct L1. lia.
  Qed.

  Lemma pa_faithful fs n gs s :
    (forall f, In f fs -> unfolded fold f) ->
    pa_convert_all fold fs {| pa_next := n; pa_map := [] |} = (gs, s) ->
    Forall2 (fun f g => propositional g /\
               forall rho, (forall b a, In (b, a) (pa_map s) -> (rho b = 1%R <-> holds M a rho)) ->
                           (holds M g rho <-> holds M f rho)) fs gs
    /\ (forall b f g, In (b, f) (pa_map s) -> In (b, g) (pa_map s) -> f = g)
    /\ (forall b c f, In (b, f) (pa_map s) -> In (c, f) (pa_map s) -> b = c)
    /\ (forall b f, In (b, f) (pa_map s) -> vty b = BOOLEAN /\ n <= vid b).
  Proof.
    intros U E. destruct (pa_convert_all_spec M fold fs _ gs s U (pa_ok_init fold n) E) as (K & L & F2).
    split; [exact F2|]. split; [apply K|]. split; [apply K|]. intros b f H. split; [eapply pk_ty; eauto|].
    destruct (pa_all_newids fs _ gs s U (pa_ok_init fold n) E b f H) as [[]|C]. exact C.
  Qed.

  Lemma pa_stable_seq fs1 op a b fs2 n g s0 s1 gs1 gs2 s2 :
    (forall f, In f (fs1 ++ fs2) -> unfolded fold f) -> fold a b = None ->
    pa_convert_all fold fs1 {| pa_next := n; pa_map := [] |} = (gs1, s0) ->
    pa_convert fold (FRel op a b) s0 = (g, s1) ->
    pa_convert_all fold fs2 s1 = (gs2, s2) ->
    pa_convert fold (FRel op a b) s2 = (g, s2) /\
    pa_convert fold (FRel (neg_relop op) a b) s2 = (mk_not g, s2).
  Proof.
    intros U N E1 E2 E3.
    destruct (pa_convert_all_spec M fold fs1 _ gs1 s0 (fun f H => U f (in_or_app _ _ _ (or_introl H))) (pa_ok_init fold n) E1) as (K1 & _).
    assert (Ur : unfolded fold (FRel op a b)) by (apply ro_rel; exact N).
    destruct (pa_visit_spec M fold _ Ur s0 g s1 K1 E2) as (K2 & _).
    destruct (pa_convert_all_spec M fold fs2 _ gs2 s2 (fun f H => U f (in_or_app _ _ _ (or_intror H))) K2 E3) as (K3 & L3 & _).
    exact (pa_stable fold op a b s0 g s1 s2 K1 N E2 K3 L3).
  Qed.

  (** Every recorded atom has only free variables of the converted formulas. *)
  Lemma pa_atomic_fv (X : var -> Prop) f s g s' : (forall v, In v (fvF f) -> X v) ->
    (forall b a, In (b, a) (pa_map s) -> fvin X a) -> pa_atomic f s = (g, s') ->
    forall b a, In (b, a) (pa_map s') -> fvin X a.
  Proof.
    intros F H E b a Hb. unfold pa_atomic in E. destruct (pa_find f s); injection E as <- <-; [eauto|].
    simpl in Hb. destruct Hb as [Hb|Hb]; [|eauto]. injection Hb as <- <-. exact F.
  Qed.
  Lemma pa_visit_fv (X : var -> Prop) f : unfolded fold f -> forall s g s', fvin X f ->
    (forall b a, In (b, a) (pa_map s) -> fvin X a) -> pa_visit fold f s = (g, s') ->
    forall b a, In (b, a) (pa_map s') -> fvin X a.
  Proof.
    assert (Sm : forall fs, (forall x, In x fs -> forall s g s',
        (forall b a, In (b, a) (pa_map s) -> fvin X a) -> pa_visit fold x s = (g, s') ->
         forall b a, In (b, a) (pa_map s') -> fvin X a) ->
      forall s r s', (forall b a, In (b, a) (pa_map s) -> fvin X a) -> smap (pa_visit fold) fs s = (r, s') ->
         forall b a, In (b, a) (pa_map s') -> fvin X a).
    { induction fs as [|x fs IH]; intros H s r s' I E; simpl in E; [injection E as <- <-; auto|].
      destruct (pa_visit fold x s) as [x' s1] eqn:E1. destruct (smap (pa_visit fold) fs s1) as [r2 s2] eqn:E2.
      injection E as <- <-. eapply IH; [|eapply H; [now left|exact I|exact E1]|exact E2]. intros; eapply H; eauto. now right. }
    induction f as [| | v | op a b | fs IH | fs IH | h IH | vs h IH] using formula_ind'; intros U s g s' F I E;
      cbn [pa_visit] in E;
      (destruct (pa_find _ s); [injection E as <- <-; exact I|]);
      try (injection E as <- <-; exact I; fail).
    - inversion U; subst. destruct op; rewrite ?mk_rel_none in E by auto; unfold pa_neg_atomic in E;
        match type of E with context [pa_atomic ?f s] => destruct (pa_atomic f s) as [g1 s1] eqn:E1 end;
        injection E as <- <-; (eapply pa_atomic_fv; [|exact I|exact E1]); exact F.
    - inversion U; subst. rewrite Forall_forall in IH. destruct (smap (pa_visit fold) fs s) as [r s1] eqn:E1. injection E as <- <-.
      eapply Sm; [|exact I|exact E1]. intros x Hx s0 g0 s0' I0 E0. eapply IH; eauto. { apply H0; auto. } eapply fvin_and_inv; eauto.
    - inversion U; subst. rewrite Forall_forall in IH. destruct (smap (pa_visit fold) fs s) as [r s1] eqn:E1. injection E as <- <-.
      eapply Sm; [|exact I|exact E1]. intros x Hx s0 g0 s0' I0 E0. eapply IH; eauto. { apply H0; auto. } eapply fvin_or_inv; eauto.
    - inversion U; subst. destruct (pa_visit fold h s) as [g1 s1] eqn:E1. injection E as <- <-. eapply IH; eauto.
    - eapply pa_atomic_fv; [|exact I|exact E]. exact F.
  Qed.
  Lemma pa_all_fv (X : var -> Prop) fs : forall s gs s', (forall f, In f fs -> unfolded fold f /\ fvin X f) ->
    (forall b a, In (b, a) (pa_map s) -> fvin X a) -> pa_convert_all fold fs s = (gs, s') ->
    forall b a, In (b, a) (pa_map s') -> fvin X a.
  Proof.
    induction fs as [|f fs IH]; intros s gs s' U I E; simpl in E.
    - injection E as <- <-. auto.
    - destruct (pa_convert fold f s) as [g s1] eqn:E1. destruct (pa_convert_all fold fs s1) as [gs2 s2] eqn:E2.
      injection E as <- <-. eapply IH; [|eapply (pa_visit_fv X f)|exact E2]; eauto; try apply (U f (or_introl eq_refl)).
      intros; apply U; now right.
  Qed.

  Lemma pa_extension fs n gs s rho :
    (forall f, In f fs -> unfolded fold f /\ forall v, In v (fvF f) -> vid v < n) ->
    pa_convert_all fold fs {| pa_next := n; pa_map := [] |} = (gs, s) ->
    exists rho', (forall v, vid v < n -> rho' v = rho v) /\
      (forall b a, In (b, a) (pa_map s) -> (rho' b = 1%R <-> holds M a rho')).
  Proof.
    intros U E.
    destruct (pa_convert_all_spec M fold fs _ gs s (fun f H => proj1 (U f H)) (pa_ok_init fold n) E) as (K & L & F2).
    assert (Nid : forall v, In v (pa_vars s) -> n <= vid v).
    { intros v Hv. unfold pa_vars in Hv. apply in_map_iff in Hv. destruct Hv as ((b & a) & <- & H).
      destruct (pa_all_newids fs _ gs s (fun f H => proj1 (U f H)) (pa_ok_init fold n) E b a H) as [[]|C]. exact C. }
    destruct (respects_ext M fold s rho K) as (rho' & A & B & _).
    - intros b f H v Hv C. pose proof (Nid v C).
      assert (F : fvin (fun v => vid v < n) f).
      { eapply (pa_all_fv (fun v => vid v < n) fs); [exact U| |exact E|exact H]. intros ? ? []. }
      specialize (F v Hv). simpl in F. lia.
    - exists rho'. split; [|exact B]. intros v Hv. apply A. intros C. apply Nid in C. lia.
  Qed.
End PA.
