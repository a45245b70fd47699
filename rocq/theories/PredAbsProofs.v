From Coq Require Import ZArith Reals Lra Lia List Bool Classical ClassicalDescription.
From Verif Require Import Dbl DblProofs Syntax Sem SemProofs FormulaCons FormulaConsProofs SpecForm Nnf NnfProofs PredAbs.
Import ListNotations.
Local Open Scope R_scope.

(** A propositional formula: Boolean variables and connectives only. *)
Inductive propositional : formula -> Prop :=
| pr_true : propositional FTrue
| pr_false : propositional FFalse
| pr_var v : propositional (FVar v)
| pr_and fs : (forall g, In g fs -> propositional g) -> propositional (FAnd fs)
| pr_or fs : (forall g, In g fs -> propositional g) -> propositional (FOr fs)
| pr_not f : propositional f -> propositional (FNot f).

Lemma smap_spec {S} (g : formula -> S -> formula * S) (le : S -> S -> Prop) (Q : formula -> formula -> S -> Prop) (I : S -> Prop) :
  (forall s, le s s) -> (forall a b c, le a b -> le b c -> le a c) ->
  (forall f f' s s', le s s' -> Q f f' s -> Q f f' s') ->
  forall l, (forall f, In f l -> forall s f' s', I s -> g f s = (f', s') -> I s' /\ le s s' /\ Q f f' s') ->
  forall s r s', I s -> smap g l s = (r, s') -> I s' /\ le s s' /\ Forall2 (fun f f' => Q f f' s') l r.
Proof.
  intros Hr Ht Hm l. induction l as [|f l IH]; intros H s r s' HI E; simpl in E.
  - injection E as <- <-. repeat split; auto.
  - destruct (g f s) as [f1 s1] eqn:E1. destruct (smap g l s1) as [r2 s2] eqn:E2.
    injection E as <- <-.
    destruct (H f (or_introl eq_refl) s f1 s1 HI E1) as (HI1 & L1 & Q1).
    destruct (IH (fun x Hx => H x (or_intror Hx)) s1 r2 s2 HI1 E2) as (HI2 & L2 & Q2).
    repeat split; eauto.
Qed.

Section P.
  Variable M : interp.
  Variable fold : expr -> expr -> option dbl.
  Notation hd := (holds M).

  (** [rho] gives every abstraction variable the truth value of the atom it stands for. *)
  Definition respects (rho : env) (m : list (var * formula)) : Prop :=
    forall b f, In (b, f) m -> (rho b = 1 <-> hd f rho).

  Definition abs_key (f : formula) : Prop :=
    (exists a b, f = FRel REq a b /\ fold a b = None) \/ (exists a b, f = FRel RLt a b /\ fold a b = None) \/
    (exists a b, f = FRel RLeq a b /\ fold a b = None) \/ (exists vs g, f = FForall vs g).

  Record pa_ok (s : pa_state) : Prop := {
    pk_ty : forall b f, In (b, f) (pa_map s) -> vty b = BOOLEAN;
    pk_lt : forall b f, In (b, f) (pa_map s) -> (vid b < pa_next s)%nat;
    pk_key : forall b f, In (b, f) (pa_map s) -> abs_key f;
    pk_fun : forall b f g, In (b, f) (pa_map s) -> In (b, g) (pa_map s) -> f = g;
    pk_inj : forall b c f, In (b, f) (pa_map s) -> In (c, f) (pa_map s) -> b = c
  }.
  Definition pa_le (s s' : pa_state) : Prop :=
    (pa_next s <= pa_next s')%nat /\ incl (pa_map s) (pa_map s').
  Lemma pa_le_refl s : pa_le s s. Proof. split; [lia|apply incl_refl]. Qed.
  Lemma pa_le_trans a b c : pa_le a b -> pa_le b c -> pa_le a c.
  Proof. intros [A1 A2] [B1 B2]. split; [lia|]. eapply incl_tran; eauto. Qed.

  Lemma pa_find_some f s b : pa_find f s = Some b -> In (b, f) (pa_map s).
  Proof.
    unfold pa_find. destruct (find _ _) as [[c g]|] eqn:E; simpl; [|discriminate].
    intros H; injection H as ->. apply find_some in E. destruct E as [E1 E2]. simpl in E2.
    apply formula_eqb_eq in E2. now subst.
  Qed.
  Lemma pa_find_none f s b : pa_find f s = None -> ~ In (b, f) (pa_map s).
  Proof.
    unfold pa_find. destruct (find _ _) as [[c g]|] eqn:E; simpl; [discriminate|].
    intros _ C. apply (find_none _ _ E) in C. simpl in C. now rewrite formula_eqb_refl in C.
  Qed.

  Lemma pa_atomic_ok f s g s' : pa_ok s -> abs_key f -> pa_atomic f s = (g, s') ->
    pa_ok s' /\ pa_le s s' /\ exists b, g = FVar b /\ In (b, f) (pa_map s').
  Proof.
    intros K A E. unfold pa_atomic in E. destruct (pa_find f s) as [b|] eqn:F.
    - injection E as <- <-. apply pa_find_some in F. repeat split; auto using pa_le_refl; try apply K; try apply pa_le_refl. eauto.
    - injection E as <- <-. split; [|split].
      + constructor; simpl.
        * intros b f0 [H|H]; [injection H as <- <-; reflexivity|eapply pk_ty; eauto].
        * intros b f0 [H|H]; [injection H as <- <-; simpl; lia|]. apply (pk_lt _ K) in H. lia.
        * intros b f0 [H|H]; [injection H as <- <-; auto|eapply pk_key; eauto].
        * intros b f0 g [H|H] [H'|H'].
          -- congruence.
          -- injection H as <- <-. apply (pk_lt _ K) in H'. simpl in H'. lia.
          -- injection H' as <- <-. apply (pk_lt _ K) in H. simpl in H. lia.
          -- eapply pk_fun; eauto.
        * intros b c f0 [H|H] [H'|H'].
          -- congruence.
          -- injection H as <- <-. exfalso. eapply pa_find_none; eauto.
          -- injection H' as <- <-. exfalso. eapply pa_find_none; eauto.
          -- eapply pk_inj; eauto.
      + split; simpl; [lia|]. apply incl_tl, incl_refl.
      + eexists; split; [reflexivity|now left].
  Qed.

  Definition pa_post (f g : formula) (s : pa_state) : Prop :=
    propositional g /\ (forall rho, respects rho (pa_map s) -> (hd g rho <-> hd f rho)).
  Lemma pa_post_mono f g s s' : pa_le s s' -> pa_post f g s -> pa_post f g s'.
  Proof. intros [_ I] [P H]. split; auto. intros rho R. apply H. intros b h Hb. apply R, I, Hb. Qed.

  Lemma mk_not_prop g : propositional g -> propositional (mk_not g).
  Proof. intros H; destruct g; simpl; try (now constructor). now inversion H. Qed.
  Lemma pr_and_inv gs : propositional (FAnd gs) -> forall g, In g gs -> propositional g.
  Proof. intros H; now inversion H. Qed.
  Lemma pr_or_inv gs : propositional (FOr gs) -> forall g, In g gs -> propositional g.
  Proof. intros H; now inversion H. Qed.

  Lemma Forall2_In_l {A B} (R : A -> B -> Prop) l r x : Forall2 R l r -> In x l -> exists y, In y r /\ R x y.
  Proof. induction 1; simpl; [tauto|]. intros [<-|H1]; [eauto|]. destruct (IHForall2 H1) as (z & Hz & Hr). eauto. Qed.
  Lemma Forall2_In_r {A B} (R : A -> B -> Prop) l r y : Forall2 R l r -> In y r -> exists x, In x l /\ R x y.
  Proof. induction 1; simpl; [tauto|]. intros [<-|H1]; [eauto|]. destruct (IHForall2 H1) as (z & Hz & Hr). eauto. Qed.

  Lemma pa_visit_spec f : unfolded fold f -> forall s g s', pa_ok s -> pa_visit fold f s = (g, s') ->
    pa_ok s' /\ pa_le s s' /\ pa_post f g s'.
  Proof.
    induction f as [| | v | op a b | fs IH | fs IH | h IH | vs h IH] using formula_ind'; intros U s g s' K E.
    all: cbn [pa_visit] in E.
    all: destruct (pa_find _ s) as [b0|] eqn:F;
      [injection E as <- <-; apply pa_find_some in F; split; [exact K|]; split; [apply pa_le_refl|];
       split; [constructor|]; intros rho R; apply (R _ _ F)|].
    - injection E as <- <-. split; [exact K|]. split; [apply pa_le_refl|]. split; [constructor|reflexivity].
    - injection E as <- <-. split; [exact K|]. split; [apply pa_le_refl|]. split; [constructor|reflexivity].
    - injection E as <- <-. split; [exact K|]. split; [apply pa_le_refl|]. split; [constructor|reflexivity].
    - inversion U as [| | |? ? ? U'| | | |]; subst.
      assert (Pos : forall o, abs_key (FRel o a b) -> pa_atomic (FRel o a b) s = (g, s') ->
                 pa_ok s' /\ pa_le s s' /\ pa_post (FRel o a b) g s').
      { intros o A E'. destruct (pa_atomic_ok _ _ _ _ K A E') as (K' & L & b' & -> & Hb).
        repeat split; auto; try apply K'; try apply L; try constructor; intros; apply (H _ _ Hb); auto. }
      assert (Neg : forall o o', abs_key (FRel o' a b) -> neg_relop o = o' -> pa_neg_atomic (mk_rel fold o' a b) s = (g, s') ->
                 pa_ok s' /\ pa_le s s' /\ pa_post (FRel o a b) g s').
      { intros o o' A Eo E'. rewrite mk_rel_none in E' by auto. unfold pa_neg_atomic in E'.
        destruct (pa_atomic (FRel o' a b) s) as [g1 s1] eqn:E1. injection E' as <- <-.
        destruct (pa_atomic_ok _ _ _ _ K A E1) as (K' & L & b' & -> & Hb).
        split; auto. split; auto. split; [repeat constructor|]. intros rho R. cbn [mk_not holds].
        rewrite (R _ _ Hb). cbn [holds]. subst o'. rewrite neg_relop_holds. split; [apply NNPP|tauto]. }
      unfold abs_key in *.
      destruct op; [apply Pos|apply (Neg RNeq REq)|apply (Neg RGt RLeq)|apply (Neg RGeq RLt)|apply Pos|apply Pos]; auto; eauto 8.
    - inversion U as [| | | |? U'| | |]; subst. rewrite Forall_forall in IH.
      destruct (smap (pa_visit fold) fs s) as [ops s1] eqn:E1. injection E as <- <-.
      destruct (smap_spec (pa_visit fold) pa_le pa_post pa_ok pa_le_refl pa_le_trans pa_post_mono fs
                  (fun f Hf s f' s' HI HE => IH f Hf (U' f Hf) s f' s' HI HE) s ops s1 K E1) as (K' & L & F2).
      split; auto. split; auto. split.
      + apply mk_conj_pres; try (now constructor); [apply pr_and_inv|].
        intros g Hg. rewrite fset_In in Hg. destruct (Forall2_In_r _ _ _ _ F2 Hg) as (x & _ & P & _). exact P.
      + intros rho R. rewrite mk_conj_holds, holds_and_in. split.
        * intros H f Hf. destruct (Forall2_In_l _ _ _ _ F2 Hf) as (y & Hy & _ & Q). apply (Q rho R), H.
          now rewrite fset_In.
        * intros H g Hg. rewrite fset_In in Hg. destruct (Forall2_In_r _ _ _ _ F2 Hg) as (x & Hx & _ & Q).
          apply (Q rho R), H, Hx.
    - inversion U as [| | | | |? U'| |]; subst. rewrite Forall_forall in IH.
      destruct (smap (pa_visit fold) fs s) as [ops s1] eqn:E1. injection E as <- <-.
      destruct (smap_spec (pa_visit fold) pa_le pa_post pa_ok pa_le_refl pa_le_trans pa_post_mono fs
                  (fun f Hf s f' s' HI HE => IH f Hf (U' f Hf) s f' s' HI HE) s ops s1 K E1) as (K' & L & F2).
      split; auto. split; auto. split.
      + apply mk_disj_pres; try (now constructor); [apply pr_or_inv|].
        intros g Hg. rewrite fset_In in Hg. destruct (Forall2_In_r _ _ _ _ F2 Hg) as (x & _ & P & _). exact P.
      + intros rho R. rewrite mk_disj_holds, holds_or_in. split.
        * intros (g & Hg & H). rewrite fset_In in Hg. destruct (Forall2_In_r _ _ _ _ F2 Hg) as (x & Hx & _ & Q).
          exists x; split; auto. now apply (Q rho R).
        * intros (f & Hf & H). destruct (Forall2_In_l _ _ _ _ F2 Hf) as (y & Hy & _ & Q).
          exists y. rewrite fset_In. split; auto. now apply (Q rho R).
    - inversion U; subst. destruct (pa_visit fold h s) as [g1 s1] eqn:E1. injection E as <- <-.
      destruct (IH H0 s g1 s1 K E1) as (K' & L & P & Q). split; auto. split; auto. split; [now apply mk_not_prop|].
      intros rho R. rewrite mk_not_holds. cbn [holds]. now rewrite (Q rho R).
    - assert (A : abs_key (FForall vs h)) by (unfold abs_key; eauto 8).
      destruct (pa_atomic_ok _ _ _ _ K A E) as (K' & L & b' & -> & Hb).
      split; auto. split; auto. split; [constructor|]. intros rho R. apply (R _ _ Hb).
  Qed.

  (** Every assignment of the user's variables extends to one that respects the map. *)
  Lemma respects_ext s rho : pa_ok s ->
    (forall b f, In (b, f) (pa_map s) -> forall v, In v (fvF f) -> ~ In v (pa_vars s)) ->
    exists rho', (forall v, ~ In v (pa_vars s) -> rho' v = rho v) /\ respects rho' (pa_map s)
                 /\ (forall v, In v (pa_vars s) -> typed_val (vty v) (rho' v)).
  Proof.
    intros K D.
    set (rho' := fun v => match find (fun p => var_eqb v (fst p)) (pa_map s) with
                          | Some (_, f) => if excluded_middle_informative (hd f rho) then 1 else 0
                          | None => rho v end).
    assert (Off : forall v, ~ In v (pa_vars s) -> rho' v = rho v).
    { intros v Hv. unfold rho'. destruct (find _ _) as [[b f]|] eqn:E; auto.
      apply find_some in E. destruct E as [E1 E2]. apply var_eqb_eq in E2. simpl in E2. subst b.
      exfalso. apply Hv. apply (in_map fst) in E1. exact E1. }
    assert (On : forall b f, In (b, f) (pa_map s) -> rho' b = if excluded_middle_informative (hd f rho) then 1 else 0).
    { intros b f H. unfold rho'. destruct (find _ _) as [[c g]|] eqn:E.
      - apply find_some in E. destruct E as [E1 E2]. apply var_eqb_eq in E2. simpl in E2. subst c.
        now rewrite (pk_fun _ K _ _ _ H E1).
      - apply (find_none _ _ E) in H. simpl in H. exfalso. assert (var_eqb b b = true) by now apply var_eqb_eq. congruence. }
    exists rho'. split; [exact Off|]. split.
    - intros b f H. rewrite (On b f H).
      assert (E : hd f rho' <-> hd f rho).
      { split; apply holds_agree; intros v Hv; [symmetry|]; apply Off; eapply D; eauto. }
      rewrite E. destruct (excluded_middle_informative (hd f rho)); split; auto; try tauto. intros C; lra.
    - intros v Hv. unfold pa_vars in Hv. apply in_map_iff in Hv. destruct Hv as ((b & f) & <- & H).
      simpl. rewrite (pk_ty _ K _ _ H). rewrite (On _ _ H). simpl.
      destruct (excluded_middle_informative _); auto.
  Qed.

  (** Stability: a comparison met again, at any later time, gets the same literal, and its
      complement gets the complementary literal. *)
  Lemma pa_find_in s b f : pa_ok s -> In (b, f) (pa_map s) -> pa_find f s = Some b.
  Proof.
    intros K H. destruct (pa_find f s) as [c|] eqn:E.
    - apply pa_find_some in E. now rewrite (pk_inj _ K _ _ _ E H).
    - exfalso. eapply pa_find_none; eauto.
  Qed.
  Lemma pa_find_nokey s f : pa_ok s -> ~ abs_key f -> pa_find f s = None.
  Proof.
    intros K N. destruct (pa_find f s) eqn:E; auto. apply pa_find_some in E. exfalso. apply N. eapply pk_key; eauto.
  Qed.
  Lemma not_key op a b : op = RNeq \/ op = RGt \/ op = RGeq -> ~ abs_key (FRel op a b).
  Proof.
    intros H [(x & y & E & _)|[(x & y & E & _)|[(x & y & E & _)|(vs & g & E)]]]; try discriminate;
      injection E as -> _ _; intuition discriminate.
  Qed.
  Definition pos_op (op : relop) : bool := match op with REq | RLt | RLeq => true | _ => false end.
  (** The literal of a comparison, once its variable is recorded. *)
  Lemma pa_visit_rel op a b s : pa_ok s -> fold a b = None -> forall v,
    In (v, FRel (if pos_op op then op else neg_relop op) a b) (pa_map s) ->
    pa_visit fold (FRel op a b) s = ((if pos_op op then FVar v else FNot (FVar v)), s).
  Proof.
    intros K U v H. cbn [pa_visit].
    destruct op; cbn [pos_op neg_relop] in *;
      try (rewrite (pa_find_in _ _ _ K H); reflexivity);
      (rewrite pa_find_nokey by (auto; apply not_key; auto); rewrite mk_rel_none by auto;
       unfold pa_neg_atomic, pa_atomic; rewrite (pa_find_in _ _ _ K H); reflexivity).
  Qed.
  Lemma pa_visit_rel_rec op a b s g s' : pa_ok s -> fold a b = None -> pa_visit fold (FRel op a b) s = (g, s') ->
    exists v, In (v, FRel (if pos_op op then op else neg_relop op) a b) (pa_map s') /\
              g = (if pos_op op then FVar v else FNot (FVar v)).
  Proof.
    intros K U E. cbn [pa_visit] in E.
    destruct (pa_find (FRel op a b) s) as [v|] eqn:F.
    - injection E as <- <-. apply pa_find_some in F. exists v.
      assert (X : pos_op op = true).
      { destruct op; auto; exfalso; [apply (not_key RNeq a b)|apply (not_key RGt a b)|apply (not_key RGeq a b)]; auto; eapply pk_key; eauto. }
      now rewrite X.
    - destruct op; cbn [pos_op neg_relop] in *; rewrite ?mk_rel_none in E by auto;
        try (assert (A : abs_key (FRel REq a b)) by (unfold abs_key; eauto 8));
        try (assert (A' : abs_key (FRel RLt a b)) by (unfold abs_key; eauto 8));
        try (assert (A'' : abs_key (FRel RLeq a b)) by (unfold abs_key; eauto 8));
        unfold pa_neg_atomic in E;
        match type of E with
        | context [pa_atomic ?f s] =>
            destruct (pa_atomic f s) as [g1 s1] eqn:E1; injection E as <- <-;
            assert (Ak : abs_key f) by assumption;
            destruct (pa_atomic_ok _ _ _ _ K Ak E1) as (_ & _ & v & -> & Hv); exists v; split; auto
        end.
  Qed.
  Lemma pa_stable op a b s g s1 s2 : pa_ok s -> fold a b = None -> pa_visit fold (FRel op a b) s = (g, s1) ->
    pa_ok s2 -> pa_le s1 s2 ->
    pa_visit fold (FRel op a b) s2 = (g, s2) /\ pa_visit fold (FRel (neg_relop op) a b) s2 = (mk_not g, s2).
  Proof.
    intros K U E K2 [_ L]. destruct (pa_visit_rel_rec _ _ _ _ _ _ K U E) as (v & H & ->). apply L in H. split.
    - now apply pa_visit_rel.
    - rewrite (pa_visit_rel (neg_relop op) a b s2 K2 U v).
      + destruct op; reflexivity.
      + destruct op; exact H.
  Qed.

  (** Sequences of conversions. *)
  Fixpoint pa_convert_all (fs : list formula) (s : pa_state) : list formula * pa_state :=
    match fs with
    | [] => ([], s)
    | f :: fs' => let (g, s1) := pa_convert fold f s in
                  let (gs, s2) := pa_convert_all fs' s1 in (g :: gs, s2)
    end.
  Lemma pa_convert_all_spec fs s gs s' : (forall f, In f fs -> unfolded fold f) -> pa_ok s ->
    pa_convert_all fs s = (gs, s') ->
    pa_ok s' /\ pa_le s s' /\ Forall2 (fun f g => pa_post f g s') fs gs.
  Proof.
    intros U K E. assert (E' : smap (pa_visit fold) fs s = (gs, s')).
    { exact E. }
    eapply (smap_spec (pa_visit fold) pa_le pa_post pa_ok pa_le_refl pa_le_trans pa_post_mono fs); eauto.
    intros f Hf s0 f' s0' HI HE. eapply pa_visit_spec; eauto.
  Qed.
  Lemma pa_ok_init n : pa_ok {| pa_next := n; pa_map := [] |}.
  Proof. constructor; simpl; tauto. Qed.
End P.
