From Coq Require Import ZArith Reals Lra Lia List Bool Classical ClassicalDescription.
From Verif Require Import Dbl DblProofs Syntax Sem SemProofs FormulaCons FormulaConsProofs SpecForm Nnf NnfProofs
  PredAbs PredAbsProofs Tseitin.
Import ListNotations.
Local Open Scope R_scope.

(** ** Free variables of the conversions *)
Section FV.
  Variable fold : expr -> expr -> option dbl.
  Variable X : var -> Prop.
  Definition fvin (f : formula) : Prop := forall v, In v (fvF f) -> X v.

  Lemma fvin_and gs : (forall g, In g gs -> fvin g) -> fvin (FAnd gs).
  Proof. intros H v Hv. simpl in Hv. apply in_flat_map in Hv. destruct Hv as (g & Hg & Hv). eapply H; eauto. Qed.
  Lemma fvin_or gs : (forall g, In g gs -> fvin g) -> fvin (FOr gs).
  Proof. intros H v Hv. simpl in Hv. apply in_flat_map in Hv. destruct Hv as (g & Hg & Hv). eapply H; eauto. Qed.
  Lemma fvin_and_inv gs : fvin (FAnd gs) -> forall g, In g gs -> fvin g.
  Proof. intros H g Hg v Hv. apply H. simpl. apply in_flat_map; eauto. Qed.
  Lemma fvin_or_inv gs : fvin (FOr gs) -> forall g, In g gs -> fvin g.
  Proof. intros H g Hg v Hv. apply H. simpl. apply in_flat_map; eauto. Qed.
  Lemma fvin_true : fvin FTrue. Proof. intros v []. Qed.
  Lemma fvin_false : fvin FFalse. Proof. intros v []. Qed.
  Lemma fvin_not g : fvin g -> fvin (mk_not g).
  Proof. intros H w Hw. apply H. destruct g; simpl in *; auto; destruct Hw. Qed.
  Lemma fvin_conj fs : (forall g, In g fs -> fvin g) -> fvin (mk_conj fs).
  Proof. apply mk_conj_pres; auto using fvin_true, fvin_false, fvin_and. apply fvin_and_inv. Qed.
  Lemma fvin_disj fs : (forall g, In g fs -> fvin g) -> fvin (mk_disj fs).
  Proof. apply mk_disj_pres; auto using fvin_true, fvin_false, fvin_or. apply fvin_or_inv. Qed.
  Lemma fvin_mk_or a b : fvin a -> fvin b -> fvin (mk_or a b).
  Proof. apply mk_or_pres; auto using fvin_true, fvin_false, fvin_or. apply fvin_or_inv. Qed.
  Lemma fvin_mk_and a b : fvin a -> fvin b -> fvin (mk_and a b).
  Proof. apply mk_and_pres; auto using fvin_true, fvin_false, fvin_and. apply fvin_and_inv. Qed.
  Lemma fvin_rel o o' a b : fvin (FRel o a b) -> fvin (mk_rel fold o' a b).
  Proof. intros H. unfold mk_rel. destruct (fold a b); [destruct (relop_on _ _)|]; auto using fvin_true, fvin_false. Qed.

  Lemma fvin_nnf push f : fvin f -> forall pol, fvin (nnf fold push f pol).
  Proof.
    induction f as [| | v | op a b | fs IH | fs IH | g IH | vs g IH] using formula_ind'; intros U pol; cbn [nnf].
    - destruct pol; auto using fvin_true, fvin_false.
    - destruct pol; auto using fvin_true, fvin_false.
    - destruct pol; auto using fvin_not.
    - destruct pol; auto. destruct push; auto using fvin_not. destruct op; eauto using fvin_rel.
    - rewrite Forall_forall in IH.
      assert (K : forall g, In g (fset (map (fun g => nnf fold push g pol) fs)) -> fvin g).
      { intros g Hg. rewrite fset_In in Hg. apply in_map_iff in Hg. destruct Hg as (x & <- & Hx).
        apply IH; auto. eapply fvin_and_inv; eauto. }
      destruct pol; auto using fvin_conj, fvin_disj.
    - rewrite Forall_forall in IH.
      assert (K : forall g, In g (fset (map (fun g => nnf fold push g pol) fs)) -> fvin g).
      { intros g Hg. rewrite fset_In in Hg. apply in_map_iff in Hg. destruct Hg as (x & <- & Hx).
        apply IH; auto. eapply fvin_or_inv; eauto. }
      destruct pol; auto using fvin_conj, fvin_disj.
    - apply IH. exact U.
    - destruct pol; auto using fvin_not.
  Qed.

  Lemma fvin_or_step a b : fvin a -> fvin b -> fvin (or_step a b).
  Proof.
    intros Ha Hb. unfold or_step. apply fvin_conj. intros g Hg. rewrite fset_In in Hg.
    assert (D : In g [mk_or a b] -> fvin g) by (intros [<-|[]]; now apply fvin_mk_or).
    destruct a; destruct b; try (apply D; assumption);
      try (apply in_map_iff in Hg; destruct Hg as (x & <- & Hx); apply fvin_mk_or; auto;
        first [exact (fvin_and_inv _ Ha x Hx)|exact (fvin_and_inv _ Hb x Hx)]).
    apply in_flat_map in Hg. destruct Hg as (c & Hc & Hg). apply in_map_iff in Hg. destruct Hg as (d & <- & Hd).
    apply fvin_mk_or; [exact (fvin_and_inv _ Ha c Hc)|exact (fvin_and_inv _ Hb d Hd)].
  Qed.
  Lemma fvin_fold_or l : forall acc, fvin acc -> (forall g, In g l -> fvin g) -> fvin (fold_left or_step l acc).
  Proof.
    induction l as [|x l IH]; simpl; intros acc A K; auto.
    apply IH; auto. apply fvin_or_step; auto.
  Qed.
End FV.

Lemma fvin_forall X vs g : fvin (fun v => In v vs \/ X v) g <-> fvin X (FForall vs g).
Proof.
  split.
  - intros H v Hv. simpl in Hv. apply filter_In in Hv. destruct Hv as [Hv N].
    destruct (H v Hv); auto. apply mem_var_In in H0. rewrite H0 in N. discriminate.
  - intros H v Hv. destruct (mem_var v vs) eqn:E; [left; now apply mem_var_In|right].
    apply H. simpl. apply filter_In. split; auto. now rewrite E.
Qed.
Lemma fvin_mk_forall X vs g : fvin (fun v => In v vs \/ X v) g -> fvin X (mk_forall vs g).
Proof.
  intros H. unfold mk_forall. apply fvin_forall. intros v Hv. destruct (H v Hv); auto.
  left. apply filter_In. split; auto. now apply mem_var_In.
Qed.

Lemma fvin_ncnf fold n : forall f X, fvin X f -> fvin X (ncnf fold n f).
Proof.
  induction n as [n IHn] using (well_founded_induction lt_wf).
  induction f as [| | v | op a b | fs IH | fs IH | g IH | vs g IH] using formula_ind'; intros X U.
  - destruct n; exact U.
  - destruct n; exact U.
  - destruct n; exact U.
  - destruct n, op; simpl; try exact U; (apply fvin_mk_and || apply fvin_mk_or); eapply fvin_rel; eauto.
  - rewrite Forall_forall in IH.
    assert (E : ncnf fold n (FAnd fs) = mk_conj (fset (map (ncnf fold n) fs))) by (destruct n; reflexivity).
    rewrite E. apply fvin_conj. intros g Hg. rewrite fset_In in Hg. apply in_map_iff in Hg.
    destruct Hg as (x & <- & Hx). apply IH; auto. eapply fvin_and_inv; eauto.
  - rewrite Forall_forall in IH.
    assert (E : ncnf fold n (FOr fs) = fold_left or_step (fset (map (ncnf fold n) fs)) FFalse) by (destruct n; reflexivity).
    rewrite E. apply fvin_fold_or; [apply fvin_false|]. intros g Hg. rewrite fset_In in Hg. apply in_map_iff in Hg.
    destruct Hg as (x & <- & Hx). apply IH; auto. eapply fvin_or_inv; eauto.
  - destruct n; exact U.
  - destruct n as [|m]; [exact U|].
    assert (E : ncnf fold (S m) (FForall vs g) = mk_forall vs (ncnf fold m (nnf fold true g true))) by reflexivity.
    rewrite E. apply fvin_mk_forall. apply IHn; [lia|]. apply fvin_nnf. now apply fvin_forall.
Qed.
Lemma fvin_naive fold f X : fvin X f -> fvin X (naive_cnf fold f).
Proof. intros H. unfold naive_cnf. apply fvin_ncnf, fvin_nnf, H. Qed.

Section P.
  Variable M : interp.
  Variable fold : expr -> expr -> option dbl.
  Notation hd := (holds M).
  Notation respects := (respects M).

  (** [m] defines fresh Boolean variables (outside [U]) one after the other (newest first). *)
  Inductive wfmap (U : var -> Prop) : list (var * formula) -> Prop :=
  | wm_nil : wfmap U []
  | wm_cons b f m : wfmap U m -> vty b = BOOLEAN -> ~ U b -> ~ In b (map fst m) ->
      fvin (fun v => U v \/ In v (map fst m)) f -> wfmap U ((b, f) :: m).

  Definition upd (rho : env) (b : var) (x : R) : env := fun v => if var_eq_dec v b then x else rho v.

  Lemma wfmap_defs U m b f : wfmap U m -> In (b, f) m -> fvin (fun v => U v \/ In v (map fst m)) f.
  Proof.
    induction 1; simpl; [tauto|]. intros [E|E].
    - injection E as <- <-. intros v Hv. destruct (H3 v Hv); auto.
    - intros v Hv. destruct (IHwfmap E v Hv); auto.
  Qed.

  Lemma respects_upd m b x rho : (forall c f, In (c, f) m -> ~ In b (fvF f)) -> ~ In b (map fst m) ->
    (respects (upd rho b x) m <-> respects rho m).
  Proof.
    intros D N.
    assert (E : forall c f, In (c, f) m -> upd rho b x c = rho c /\ (hd f (upd rho b x) <-> hd f rho)).
    { intros c f H. split.
      - unfold upd. destruct (var_eq_dec c b); auto. subst. exfalso. apply N. apply (in_map fst) in H. exact H.
      - apply holds_agree. intros v Hv. unfold upd. destruct (var_eq_dec v b); auto. subst. exfalso. eapply D; eauto. }
    split; intros H c f Hc; destruct (E c f Hc) as [E1 E2]; specialize (H c f Hc); rewrite E1, E2 in *; exact H.
  Qed.

  Lemma wfmap_no_b U m b : wfmap U m -> ~ U b -> ~ In b (map fst m) -> forall c f, In (c, f) m -> ~ In b (fvF f).
  Proof. intros W Nb Ni c f H C. destruct (wfmap_defs _ _ _ _ W H b C); auto. Qed.

  Lemma wfmap_ext U m : wfmap U m -> forall rho, exists rho',
    (forall v, U v -> rho' v = rho v) /\ (forall v, ~ In v (map fst m) -> rho' v = rho v) /\
    respects rho' m /\ (forall v, In v (map fst m) -> typed_val (vty v) (rho' v)).
  Proof.
    induction 1 as [|b f m W IH Ty Nu Ni Fv]; intros rho.
    - exists rho. split; [auto|]. split; [auto|]. split; [intros ? ? []|intros ? []].
    - destruct (IH rho) as (r1 & A1 & A2 & A3 & A4).
      set (x := if excluded_middle_informative (hd f r1) then 1 else 0).
      exists (upd r1 b x).
      assert (Nm : forall c g, In (c, g) m -> ~ In b (fvF g)) by (eapply wfmap_no_b; eauto).
      assert (Ef : hd f (upd r1 b x) <-> hd f r1).
      { apply holds_agree. intros v Hv. unfold upd. destruct (var_eq_dec v b); auto. subst.
        destruct (Fv b Hv); contradiction. }
      split; [|split; [|split]].
      + intros v Hv. unfold upd. destruct (var_eq_dec v b); [subst; contradiction|auto].
      + simpl. intros v Hv. unfold upd. destruct (var_eq_dec v b); [subst; tauto|apply A2; tauto].
      + intros c g H. simpl in H. destruct H as [H|H]; [injection H as <- <-|].
        * rewrite Ef. unfold upd. destruct (var_eq_dec b b); [|tauto]. unfold x.
          destruct (excluded_middle_informative _); split; auto; try tauto. lra.
        * apply (proj2 (respects_upd m b x r1 Nm Ni) A3 _ _ H).
      + simpl. intros v Hv. unfold upd. destruct (var_eq_dec v b).
        * subst. rewrite Ty. simpl. unfold x. destruct (excluded_middle_informative _); auto.
        * destruct Hv as [->|Hv]; [tauto|auto].
  Qed.

  (** ** Visiting *)
  Record ts_ok (U : var -> Prop) (s : ts_state) : Prop := {
    to_wf : wfmap U (ts_map s);
    to_U : forall v, U v -> (vid v < ts_next s)%nat;
    to_lt : forall v, In v (map fst (ts_map s)) -> (vid v < ts_next s)%nat
  }.
  Definition ts_le (s s' : ts_state) : Prop :=
    (ts_next s <= ts_next s')%nat /\ incl (ts_map s) (ts_map s').
  Lemma ts_le_refl s : ts_le s s. Proof. split; [lia|apply incl_refl]. Qed.
  Lemma ts_le_trans a b c : ts_le a b -> ts_le b c -> ts_le a c.
  Proof. intros [A1 A2] [B1 B2]. split; [lia|]. eapply incl_tran; eauto. Qed.
  Definition ts_post (U : var -> Prop) (f g : formula) (s : ts_state) : Prop :=
    fvin (fun v => U v \/ In v (map fst (ts_map s))) g /\
    (forall rho, respects rho (ts_map s) -> (hd g rho <-> hd f rho)).
  Lemma ts_post_mono U f g s s' : ts_le s s' -> ts_post U f g s -> ts_post U f g s'.
  Proof.
    intros [_ I] [P H]. split.
    - intros v Hv. destruct (P v Hv) as [|H1]; auto. right. apply in_map_iff in H1. destruct H1 as (p & <- & Hp).
      apply in_map. auto.
    - intros rho R. apply H. intros b h Hb. apply R, I, Hb.
  Qed.

  Lemma ts_ok_emplace U s1 s2 f : ts_ok U s2 -> (ts_next s1 < ts_next s2)%nat ->
    ~ In (mkVar (ts_next s1) BOOLEAN) (map fst (ts_map s2)) -> ~ U (mkVar (ts_next s1) BOOLEAN) ->
    fvin (fun v => U v \/ In v (map fst (ts_map s2))) f -> ts_ok U (ts_emplace (mkVar (ts_next s1) BOOLEAN) f s2).
  Proof.
    intros K L N Nu F. constructor; simpl.
    - constructor; auto. apply K.
    - apply K.
    - intros v [<-|H]; simpl; [lia|]. now apply (to_lt _ _ K).
  Qed.
  Lemma ts_ok_fresh U s : ts_ok U s -> ts_ok U (snd (ts_fresh s)) /\ ~ In (fst (ts_fresh s)) (map fst (ts_map s)) /\ ~ U (fst (ts_fresh s)).
  Proof.
    intros K. simpl. split; [|split].
    - constructor; simpl; try apply K; intros v Hv; [apply (to_U _ _ K) in Hv|apply (to_lt _ _ K) in Hv]; lia.
    - intros C. apply (to_lt _ _ K) in C. simpl in C. lia.
    - intros C. apply (to_U _ _ K) in C. simpl in C. lia.
  Qed.
  (** Fresh variable right before emplacing. *)
  Lemma ts_emplace_fresh U s f : ts_ok U s -> fvin (fun v => U v \/ In v (map fst (ts_map s))) f ->
    forall b s2, ts_fresh s = (b, s2) ->
    ts_ok U (ts_emplace b f s2) /\ ts_le s (ts_emplace b f s2).
  Proof.
    intros K F b s2 E. unfold ts_fresh in E. injection E as <- <-.
    destruct (ts_ok_fresh U s K) as (K2 & N & Nu). split.
    - apply (ts_ok_emplace U s); auto; simpl in *; auto.
    - split; simpl; [lia|]. apply incl_tl, incl_refl.
  Qed.

  (** Result of a visit: either no definition was added for the node itself, or the node is the
      newest definition and its meaning relies only on the older ones. *)
  Definition ts_top (f g : formula) (s s' : ts_state) : Prop :=
    (s' = s /\ (forall rho, hd g rho <-> hd f rho)) \/
    (exists h def rest, ts_map s' = (h, def) :: rest /\ g = FVar h /\
       forall rho, respects rho rest -> (hd def rho <-> hd f rho)).

  Lemma forall_clauses_holds vs g rho : unfolded fold g ->
    ((forall c, In c (forall_clauses fold vs g) -> hd c rho) <-> hd (FForall vs g) rho).
  Proof.
    intros U.
    assert (Cl : forall r, hd (naive_cnf fold g) r <-> forall c, In c (get_clauses (naive_cnf fold g)) -> hd c r).
    { intros r. destruct (naive_cnf fold g) eqn:E; cbn [get_clauses];
        try (split; [intros H c [<-|[]]; exact H|intros H; apply H; now left]).
      apply holds_and_in. }
    assert (One : forall c, hd (if existsb (fun v => mem_var v vs) (fvF c) then mk_forall vs c else c) rho
                            <-> hd (FForall vs c) rho).
    { intros c. destruct (existsb (fun v => mem_var v vs) (fvF c)) eqn:E; [apply mk_forall_holds|].
      assert (Dis : forall v, In v (fvF c) -> ~ In v vs).
      { intros v Hv C. assert (existsb (fun v => mem_var v vs) (fvF c) = true); [|congruence].
        apply existsb_exists. exists v; split; auto. now apply mem_var_In. }
      simpl. split.
      - intros H r A _. apply (holds_agree M c rho); auto. intros v Hv. symmetry. apply A. auto.
      - intros H. specialize (H (fun v => if in_dec var_eq_dec v vs then 0 else rho v)).
        apply (holds_agree M c rho) in H; auto.
        + intros v Hv. destruct (in_dec var_eq_dec v vs); auto. exfalso. eapply Dis; eauto.
        + intros v Hv. destruct (in_dec var_eq_dec v vs); tauto.
        + intros v Hv. destruct (in_dec var_eq_dec v vs); [|tauto]. apply typed_val_inhabited. }
    unfold forall_clauses. split.
    - intros H. intros r A T. apply (naive_cnf_holds M fold g U), Cl. intros c Hc.
      specialize (H _ (proj2 (fset_In _ _) (in_map _ _ _ Hc))). apply One in H. apply H; auto.
    - intros H c Hc. rewrite fset_In in Hc. apply in_map_iff in Hc. destruct Hc as (c0 & <- & Hc).
      apply One. intros r A T. apply Cl; auto. apply naive_cnf_holds; auto.
  Qed.
  Lemma forall_clauses_fv vs g U : fvin U (FForall vs g) -> forall c, In c (forall_clauses fold vs g) -> fvin U c.
  Proof.
    intros F c Hc. unfold forall_clauses in Hc. rewrite fset_In in Hc. apply in_map_iff in Hc.
    destruct Hc as (c0 & <- & Hc).
    assert (F0 : fvin (fun v => In v vs \/ U v) c0).
    { apply fvin_forall in F. apply (fvin_naive fold) in F. destruct (naive_cnf fold g) eqn:E; cbn [get_clauses] in Hc;
        try (destruct Hc as [<-|[]]; exact F). exact (fvin_and_inv _ _ F _ Hc). }
    destruct (existsb (fun v => mem_var v vs) (fvF c0)) eqn:E; [now apply fvin_mk_forall|].
    intros v Hv. destruct (F0 v Hv); auto. exfalso.
    assert (existsb (fun v => mem_var v vs) (fvF c0) = true); [|congruence].
    apply existsb_exists. exists v; split; auto. now apply mem_var_In.
  Qed.

  Lemma fvin_weaken (X Y : var -> Prop) f : (forall v, X v -> Y v) -> fvin X f -> fvin Y f.
  Proof. intros H F v Hv. auto. Qed.

  Lemma top_post U f g s s' : fvin U f -> ts_ok U s' ->
    (fvin U g \/ exists b, g = FVar b) -> ts_top f g s s' -> ts_post U f g s'.
  Proof.
    intros Fv K Fg [(-> & H)|(h & def & rest & E & -> & H)].
    - split; [|intros rho _; apply H].
      destruct Fg as [Fg|(b & ->)]; [eapply fvin_weaken; [|exact Fg]; auto|].
      intros v [<-|[]].
      (* g is a variable equivalent to f: must already be known; handled by the caller *)
      destruct (classic (U b)); auto. exfalso.
      assert (Hb : ~ In b (fvF f)) by (intro C; apply H0, Fv, C).
      pose proof (H (upd (fun _ => 0) b 1)) as H1. pose proof (H (upd (fun _ => 0) b 0)) as H2.
      assert (E : hd f (upd (fun _ => 0) b 1) <-> hd f (upd (fun _ => 0) b 0)).
      { apply holds_agree. intros v Hv. unfold upd. destruct (var_eq_dec v b); auto. subst; contradiction. }
      simpl in H1, H2. unfold upd in H1, H2. destruct (var_eq_dec b b); [|tauto].
      rewrite E in H1. assert (1 = 0 <-> 0 = 1) by lra. assert (~ (0 = 1)) by lra. tauto.
    - split.
      + intros v [<-|[]]. right. rewrite E. now left.
      + intros rho R. rewrite E in R. simpl. rewrite (R h def (or_introl eq_refl)). apply H.
        intros b d Hb. apply R. now right.
  Qed.

  Lemma ts_visit_spec U f : unfolded fold f -> fvin U f -> forall s g s', ts_ok U s -> ts_visit fold f s = (g, s') ->
    ts_ok U s' /\ ts_le s s' /\ ts_post U f g s' /\ ts_top f g s s'.
  Proof.
    intros Un Fv.
    cut (forall s g s', ts_ok U s -> ts_visit fold f s = (g, s') ->
      ts_ok U s' /\ ts_le s s' /\ (fvin U g \/ exists b, g = FVar b) /\ ts_top f g s s').
    { intros H s g s' K E. destruct (H s g s' K E) as (A & B & C & D). split; [exact A|]. split; [exact B|].
      split; [|exact D]. apply (top_post U f g s s'); auto. }
    revert Un Fv.
    induction f as [| | v | op a b | fs IH | fs IH | h IH | vs h IH] using formula_ind'; intros Un Fv s g s' K E;
      cbn [ts_visit] in E.
    - injection E as <- <-. split; [exact K|]. split; [apply ts_le_refl|]. split; [now left|]. left; split; [reflexivity|reflexivity].
    - injection E as <- <-. split; [exact K|]. split; [apply ts_le_refl|]. split; [now left|]. left; split; [reflexivity|reflexivity].
    - injection E as <- <-. split; [exact K|]. split; [apply ts_le_refl|]. split; [now left|]. left; split; [reflexivity|reflexivity].
    - injection E as <- <-. split; [exact K|]. split; [apply ts_le_refl|]. split; [now left|]. left; split; [reflexivity|reflexivity].
    - inversion Un as [| | | |? U'| | |]; subst. rewrite Forall_forall in IH.
      destruct (smap (ts_visit fold) fs s) as [ops s1] eqn:E1.
      destruct (ts_fresh s1) as [b s2] eqn:E2. injection E as <- <-.
      destruct (smap_spec (ts_visit fold) ts_le (ts_post U) (ts_ok U) ts_le_refl ts_le_trans (ts_post_mono U) fs) with (s := s) (r := ops) (s' := s1) as (K1 & L1 & F2); auto.
      { intros f Hf s0 f' s0' HI HE.
        pose proof (fvin_and_inv _ _ Fv f Hf) as Ff.
        destruct (IH f Hf (U' f Hf) Ff s0 f' s0' HI HE) as (A & B & C & D).
        split; auto. split; auto. apply (top_post U f f' s0 s0'); auto. }
      assert (Fd : fvin (fun v => U v \/ In v (map fst (ts_map s1))) (mk_conj (fset ops))).
      { apply fvin_conj. intros g Hg. rewrite fset_In in Hg. destruct (Forall2_In_r _ _ _ _ F2 Hg) as (x & _ & P & _). exact P. }
      destruct (ts_emplace_fresh U s1 _ K1 Fd b s2 E2) as (K2 & L2).
      split; auto. split; [eapply ts_le_trans; eauto|]. split; [right; eauto|]. right.
      exists b, (mk_conj (fset ops)), (ts_map s1). unfold ts_fresh in E2. injection E2 as <- <-. simpl.
      split; auto. split; auto. intros rho R. rewrite mk_conj_holds. change (fold_right _ _ fs) with (hd (FAnd fs) rho).
      rewrite holds_and_in. split.
      + intros H f Hf. destruct (Forall2_In_l _ _ _ _ F2 Hf) as (y & Hy & _ & Q). apply (Q rho R), H. now rewrite fset_In.
      + intros H g Hg. rewrite fset_In in Hg. destruct (Forall2_In_r _ _ _ _ F2 Hg) as (x & Hx & _ & Q). apply (Q rho R), H, Hx.
    - inversion Un as [| | | | |? U'| |]; subst. rewrite Forall_forall in IH.
      destruct (smap (ts_visit fold) fs s) as [ops s1] eqn:E1.
      destruct (ts_fresh s1) as [b s2] eqn:E2. injection E as <- <-.
      destruct (smap_spec (ts_visit fold) ts_le (ts_post U) (ts_ok U) ts_le_refl ts_le_trans (ts_post_mono U) fs) with (s := s) (r := ops) (s' := s1) as (K1 & L1 & F2); auto.
      { intros f Hf s0 f' s0' HI HE.
        pose proof (fvin_or_inv _ _ Fv f Hf) as Ff.
        destruct (IH f Hf (U' f Hf) Ff s0 f' s0' HI HE) as (A & B & C & D).
        split; auto. split; auto. apply (top_post U f f' s0 s0'); auto. }
      assert (Fd : fvin (fun v => U v \/ In v (map fst (ts_map s1))) (mk_disj (fset ops))).
      { apply fvin_disj. intros g Hg. rewrite fset_In in Hg. destruct (Forall2_In_r _ _ _ _ F2 Hg) as (x & _ & P & _). exact P. }
      destruct (ts_emplace_fresh U s1 _ K1 Fd b s2 E2) as (K2 & L2).
      split; auto. split; [eapply ts_le_trans; eauto|]. split; [right; eauto|]. right.
      exists b, (mk_disj (fset ops)), (ts_map s1). unfold ts_fresh in E2. injection E2 as <- <-. simpl.
      split; auto. split; auto. intros rho R. rewrite mk_disj_holds. change (fold_right _ _ fs) with (hd (FOr fs) rho).
      rewrite holds_or_in. split.
      + intros (g & Hg & H). rewrite fset_In in Hg. destruct (Forall2_In_r _ _ _ _ F2 Hg) as (x & Hx & _ & Q).
        exists x; split; auto. now apply (Q rho R).
      + intros (f & Hf & H). destruct (Forall2_In_l _ _ _ _ F2 Hf) as (y & Hy & _ & Q).
        exists y. rewrite fset_In. split; auto. now apply (Q rho R).
    - inversion Un; subst. destruct (is_atomic h).
      { injection E as <- <-. split; [exact K|]. split; [apply ts_le_refl|]. split; [now left|]. left; split; [reflexivity|reflexivity]. }
      destruct (ts_fresh s) as [b s1] eqn:E1. destruct (ts_visit fold h s1) as [g1 s2] eqn:E2. injection E as <- <-.
      destruct (ts_ok_fresh U s K) as (K1 & N1 & N1'). rewrite E1 in K1, N1, N1'. simpl in K1, N1, N1'.
      destruct (IH H0 Fv s1 g1 s2 K1 E2) as (K2 & L2 & G2 & T2).
      pose proof (top_post U h g1 s1 s2 Fv K2 G2 T2) as P2.
      assert (Nb : ~ In b (map fst (ts_map s2))).
      { (* every variable added during the inner visit has an id beyond [b]'s *)
        assert (New : forall f s g s', ts_visit fold f s = (g, s') -> (ts_next s <= ts_next s')%nat /\
                  forall v, In v (map fst (ts_map s')) -> In v (map fst (ts_map s)) \/ (ts_next s <= vid v)%nat).
        { clear. intros f. induction f as [| | v | op a b | fs IH | fs IH | h IH | vs h IH] using formula_ind';
            intros s g s' E; cbn [ts_visit] in E;
            try (injection E as <- <-; split; [lia|]; intros v0 Hv; left; exact Hv).
          - rewrite Forall_forall in IH.
            assert (Sm : forall l s r s', (forall x, In x l -> In x fs) -> smap (ts_visit fold) l s = (r, s') ->
              (ts_next s <= ts_next s')%nat /\ forall v, In v (map fst (ts_map s')) -> In v (map fst (ts_map s)) \/ (ts_next s <= vid v)%nat).
            { induction l as [|x l IHl]; intros s0 r s0' Hin Es; simpl in Es.
              - injection Es as <- <-. split; [lia|]. auto.
              - destruct (ts_visit fold x s0) as [x' t1] eqn:Ex. destruct (smap (ts_visit fold) l t1) as [r' t2] eqn:El.
                injection Es as <- <-. destruct (IH x (Hin x (or_introl eq_refl)) _ _ _ Ex) as [A1 A2].
                destruct (IHl t1 r' t2 (fun y Hy => Hin y (or_intror Hy)) El) as [B1 B2]. split; [lia|].
                intros v Hv. destruct (B2 v Hv) as [C|C]; [|right; lia]. destruct (A2 v C); auto. }
            destruct (smap (ts_visit fold) fs s) as [ops s1] eqn:E1. simpl in E. injection E as <- <-.
            destruct (Sm fs s ops s1 (fun x Hx => Hx) E1) as [A B]. simpl. split; [lia|].
            intros v [<-|Hv]; [right; simpl; lia|auto].
          - rewrite Forall_forall in IH.
            assert (Sm : forall l s r s', (forall x, In x l -> In x fs) -> smap (ts_visit fold) l s = (r, s') ->
              (ts_next s <= ts_next s')%nat /\ forall v, In v (map fst (ts_map s')) -> In v (map fst (ts_map s)) \/ (ts_next s <= vid v)%nat).
            { induction l as [|x l IHl]; intros s0 r s0' Hin Es; simpl in Es.
              - injection Es as <- <-. split; [lia|]. auto.
              - destruct (ts_visit fold x s0) as [x' t1] eqn:Ex. destruct (smap (ts_visit fold) l t1) as [r' t2] eqn:El.
                injection Es as <- <-. destruct (IH x (Hin x (or_introl eq_refl)) _ _ _ Ex) as [A1 A2].
                destruct (IHl t1 r' t2 (fun y Hy => Hin y (or_intror Hy)) El) as [B1 B2]. split; [lia|].
                intros v Hv. destruct (B2 v Hv) as [C|C]; [|right; lia]. destruct (A2 v C); auto. }
            destruct (smap (ts_visit fold) fs s) as [ops s1] eqn:E1. simpl in E. injection E as <- <-.
            destruct (Sm fs s ops s1 (fun x Hx => Hx) E1) as [A B]. simpl. split; [lia|].
            intros v [<-|Hv]; [right; simpl; lia|auto].
          - destruct (is_atomic h); [injection E as <- <-; split; [lia|auto]|].
            simpl in E. destruct (ts_visit fold h _) as [g' s2] eqn:E2. injection E as <- <-.
            destruct (IH _ _ _ E2) as [A B]. simpl in A, B |- *. split; [lia|].
            intros v [<-|Hv]; [right; simpl; lia|]. destruct (B v Hv); [auto|right; lia].
          - assert (Em : (exists c, (c, s) = (g, s')) \/ (exists f, (FVar (mkVar (ts_next s) BOOLEAN),
                ts_emplace (mkVar (ts_next s) BOOLEAN) f (snd (ts_fresh s))) = (g, s'))).
            { destruct (forall_clauses fold vs h) as [|c [|c2 cs]]; simpl in E; eauto. }
            destruct Em as [(c & Em)|(f & Em)]; injection Em as <- <-; simpl; (split; [lia|]); auto.
            intros v [<-|Hv]; [right; simpl; lia|auto]. }
        intros C. destruct (New _ _ _ _ E2) as [_ New2]. destruct (New2 _ C) as [D|D].
        - unfold ts_fresh in E1. injection E1 as <- <-. simpl in D. now apply N1.
        - unfold ts_fresh in E1. injection E1 as <- <-. simpl in D. lia. }
      assert (Eb : b = mkVar (ts_next s) BOOLEAN) by (unfold ts_fresh in E1; congruence).
      assert (Lb : (ts_next s < ts_next s2)%nat).
      { unfold ts_fresh in E1. injection E1 as <- <-. destruct L2 as [L2 _]. simpl in L2. lia. }
      split; [|split; [|split]].
      + subst b. apply ts_ok_emplace; auto. apply fvin_not. apply P2.
      + unfold ts_fresh in E1. injection E1 as <- <-. destruct L2 as [L2 L2']. split; simpl in *; [lia|].
        now apply incl_tl.
      + right; eauto.
      + right. exists b, (mk_not g1), (ts_map s2). simpl. split; auto. split; auto. intros rho R.
        rewrite mk_not_holds. destruct P2 as [_ P2]. now rewrite (P2 rho R).
    - inversion Un; subst.
      pose proof (forall_clauses_fv vs h U Fv) as Fc.
      pose proof (fun rho => forall_clauses_holds vs h rho H0) as Hc.
      assert (Multi : forall b s2, ts_fresh s = (b, s2) ->
        (FVar b, ts_emplace b (mk_conj (forall_clauses fold vs h)) s2) = (g, s') ->
        ts_ok U s' /\ ts_le s s' /\ (fvin U g \/ (exists b : var, g = FVar b)) /\ ts_top (FForall vs h) g s s').
      { intros b s2 E2 Em. injection Em as <- <-.
        assert (Fd : fvin (fun v => U v \/ In v (map fst (ts_map s))) (mk_conj (forall_clauses fold vs h))).
        { apply fvin_conj. intros c Hcc v Hv. left. eapply Fc; eauto. }
        destruct (ts_emplace_fresh U s _ K Fd b s2 E2) as (K2 & L2).
        split; auto. split; auto. split; [right; eauto|]. right.
        exists b, (mk_conj (forall_clauses fold vs h)), (ts_map s). unfold ts_fresh in E2. injection E2 as <- <-.
        split; [reflexivity|]. split; auto. intros rho _. rewrite mk_conj_holds. apply Hc. }
      destruct (forall_clauses fold vs h) as [|c [|c2 cs]] eqn:EC.
      + eapply Multi; [reflexivity|exact E].
      + injection E as <- <-. split; auto. split; [apply ts_le_refl|]. split; [left; apply Fc; now left|].
        left. split; auto. intros rho. rewrite <- Hc. split; [intros H c' [<-|[]]; auto|]. intros H; apply H; now left.
      + eapply Multi; [reflexivity|exact E].
  Qed.

  (** ** Clauses *)
  Lemma add_clause_holds f cs rho : (forall c, In c (add_clause f cs) -> hd c rho) <-> hd f rho /\ (forall c, In c cs -> hd c rho).
  Proof.
    unfold add_clause. destruct (is_true f) eqn:E.
    - apply is_true_eq in E. subst. simpl. tauto.
    - split.
      + intros H. split; [|intros c Hc]; apply H, in_or_app; [right; now left|auto].
      + intros [H1 H2] c Hc. apply in_app_or in Hc. destruct Hc as [|[<-|[]]]; auto.
  Qed.
  Lemma fold_add_holds (h : formula -> formula) l rho : forall cs,
    (forall c, In c (fold_left (fun cs x => add_clause (h x) cs) l cs) -> hd c rho) <->
    (forall x, In x l -> hd (h x) rho) /\ (forall c, In c cs -> hd c rho).
  Proof.
    induction l as [|x l IH]; intros cs; simpl; [intuition|].
    rewrite IH, add_clause_holds. split.
    - intros [H1 [H2 H3]]. split; auto. intros y [<-|]; auto.
    - intros [H1 H2]. repeat split; auto.
  Qed.

  Lemma cnfize_holds b f cs rho : cnfize b f = Some cs ->
    ((forall c, In c cs -> hd c rho) <-> (rho b = 1 <-> hd f rho)).
  Proof.
    intros E. destruct f; try discriminate; unfold cnfize in E; injection E as <-.
    - rewrite add_clause_holds, (fold_add_holds (fun bi => mk_or (mk_not (FVar b)) bi)).
      rewrite mk_or_holds, mk_disj_holds, holds_and_in. cbn [holds].
      split.
      + intros [H1 [H2 _]]. split.
        * intros Hb g Hg. specialize (H2 g Hg). apply mk_or_holds in H2. rewrite mk_not_holds in H2. cbn [holds] in H2. tauto.
        * intros H. destruct H1 as [(g & Hg & H1)|H1]; auto. rewrite fset_In in Hg. apply in_map_iff in Hg.
          destruct Hg as (x & <- & Hx). apply mk_not_holds in H1. exfalso. auto.
      + intros H. split; [|split].
        * destruct (classic (rho b = 1)) as [|N]; auto. left.
          assert (C : ~ forall g, In g fs -> hd g rho) by tauto. apply not_all_ex_not in C. destruct C as (g & C).
          apply imply_to_and in C. destruct C as [C1 C2]. exists (mk_not g). split; [|now apply mk_not_holds].
          rewrite fset_In. now apply in_map.
        * intros g Hg. apply mk_or_holds. rewrite mk_not_holds. cbn [holds]. destruct (classic (rho b = 1)); auto. right. apply H; auto.
        * intros c [].
    - rewrite (fold_add_holds (fun nbi => mk_or nbi (FVar b))), add_clause_holds.
      rewrite mk_or_holds. rewrite (holds_or_in M fs rho). cbn [holds].
      split.
      + intros [H1 [H2 _]]. split; [tauto|]. intros (g & Hg & H).
        assert (K : hd (mk_or (mk_not g) (FVar b)) rho) by (apply H1; rewrite fset_In; now apply in_map).
        apply mk_or_holds in K. rewrite mk_not_holds in K. cbn [holds] in K. tauto.
      + intros H. split; [|split].
        * intros x Hx. rewrite fset_In in Hx. apply in_map_iff in Hx. destruct Hx as (g & <- & Hg).
          apply mk_or_holds. rewrite mk_not_holds. cbn [holds]. destruct (classic (hd g rho)); auto. right. apply H. eauto.
        * destruct (classic (rho b = 1)); [right; now apply H|auto].
        * intros c [].
    - rewrite !add_clause_holds, !mk_imply_holds. cbn [holds]. intuition; simpl in *; contradiction.
  Qed.

  Lemma get_clauses_holds f rho : (forall c, In c (get_clauses f) -> hd c rho) <-> hd f rho.
  Proof.
    destruct f; cbn [get_clauses]; try (split; [intros H; apply H; now left|intros H c [<-|[]]; exact H]).
    rewrite holds_and_in. reflexivity.
  Qed.

  Lemma cnfize_map_holds h m cs rho : cnfize_map h m = Some cs ->
    ((forall c, In c cs -> hd c rho) <->
     (forall b f, In (b, f) m -> if var_eqb h b then hd f rho else (rho b = 1 <-> hd f rho))).
  Proof.
    revert cs; induction m as [|[b f] m IH]; intros cs E; simpl in E.
    - injection E as <-. split; [intros _ b f []|intros _ c []].
    - destruct (if var_eqb h b then Some (get_clauses f) else cnfize b f) as [c1|] eqn:E1; [|discriminate].
      destruct (cnfize_map h m) as [c2|] eqn:E2; [|discriminate]. injection E as <-.
      assert (K : (forall c, In c c1 -> hd c rho) <-> if var_eqb h b then hd f rho else (rho b = 1 <-> hd f rho)).
      { destruct (var_eqb h b) eqn:Ev; [injection E1 as <-; apply get_clauses_holds|now apply cnfize_holds]. }
      specialize (IH c2 eq_refl). split.
      + intros H b' f' [Hin|Hin]; [injection Hin as <- <-; apply K|apply IH; auto]; intros; apply H, in_or_app; auto.
      + intros H c Hc. apply in_app_or in Hc. destruct Hc as [Hc|Hc].
        * revert c Hc. apply K. apply (H b f). now left.
        * revert c Hc. apply IH. intros; apply H. now right.
  Qed.

  Theorem ts_convert_sound f next cs s : unfolded fold f -> (forall v, In v (fvF f) -> (vid v < next)%nat) ->
    ts_convert fold f next = (Some cs, s) ->
    forall rho, (forall c, In c cs -> hd c rho) -> hd f rho.
  Proof.
    intros Un Fv E rho H. unfold ts_convert in E.
    destruct (ts_visit fold f {| ts_next := next; ts_map := [] |}) as [head s1] eqn:E1.
    assert (K0 : ts_ok (fun v => (vid v < next)%nat) {| ts_next := next; ts_map := [] |}).
    { constructor; simpl; [constructor|auto|tauto]. }
    destruct (ts_visit_spec _ f Un Fv _ _ _ K0 E1) as (K1 & L1 & P1 & T1).
    destruct T1 as [(T1 & T2)|(h & def & rest & T1 & T2 & T3)].
    - subst s1. simpl in E. injection E as <- <-. apply T2. apply H. now left.
    - rewrite T1 in E. subst head. injection E as E <-.
      change (cnfize_map h ((h, def) :: rest) = Some cs) in E.
      pose proof (proj1 (cnfize_map_holds _ _ _ rho E) H) as HM.
      pose proof (to_wf _ _ K1) as W. rewrite T1 in W. inversion W as [|? ? ? W' Ty Nu Ni Fd]; subst.
      apply T3.
      + intros b d Hb. specialize (HM b d (or_intror Hb)). destruct (var_eqb h b) eqn:Ev; auto.
        apply var_eqb_eq in Ev. subst. exfalso. apply Ni. apply (in_map fst) in Hb. exact Hb.
      + specialize (HM h def (or_introl eq_refl)). assert (var_eqb h h = true) by now apply var_eqb_eq.
        now rewrite H0 in HM.
  Qed.

  Theorem ts_convert_complete f next cs s : unfolded fold f -> (forall v, In v (fvF f) -> (vid v < next)%nat) ->
    ts_convert fold f next = (Some cs, s) ->
    forall rho, hd f rho -> exists rho',
      (forall v, (vid v < next)%nat -> rho' v = rho v) /\
      (forall v, ~ In v (map fst (ts_map s)) -> rho' v = rho v) /\
      (forall v, In v (map fst (ts_map s)) -> typed_val (vty v) (rho' v)) /\
      (forall c, In c cs -> hd c rho').
  Proof.
    intros Un Fv E rho H. unfold ts_convert in E.
    destruct (ts_visit fold f {| ts_next := next; ts_map := [] |}) as [head s1] eqn:E1.
    assert (K0 : ts_ok (fun v => (vid v < next)%nat) {| ts_next := next; ts_map := [] |}).
    { constructor; simpl; [constructor|auto|tauto]. }
    destruct (ts_visit_spec _ f Un Fv _ _ _ K0 E1) as (K1 & L1 & P1 & T1).
    destruct T1 as [(T1 & T2)|(h & def & rest & T1 & T2 & T3)].
    - subst s1. simpl in E. injection E as <- <-. exists rho. repeat split; auto; simpl; try tauto.
      intros c [<-|[]]. now apply T2.
    - pose proof T1 as T1'. rewrite T1 in E. subst head. injection E as E <-.
      change (cnfize_map h ((h, def) :: rest) = Some cs) in E.
      destruct (wfmap_ext _ _ (to_wf _ _ K1) rho) as (r & A1 & A2 & A3 & A4).
      exists r. repeat split; auto.
      apply (cnfize_map_holds _ _ _ r E). intros b d Hb. rewrite T1' in A3. pose proof (A3 b d Hb) as A5.
      destruct (var_eqb h b) eqn:Ev; auto. apply var_eqb_eq in Ev. subst b.
      pose proof (to_wf _ _ K1) as W. rewrite T1' in W. inversion W as [|? ? ? W' Ty Nu Ni Fd]; subst.
      destruct Hb as [Hb|Hb]; [injection Hb as <-|exfalso; apply Ni; apply (in_map fst) in Hb; exact Hb].
      apply T3; [intros b0 d0 H0; apply A3; now right|].
      apply (holds_agree M f rho); auto. intros v Hv. symmetry. apply A1. now apply Fv.
  Qed.

  Theorem ts_convert_fresh f next cs s : unfolded fold f -> (forall v, In v (fvF f) -> (vid v < next)%nat) ->
    ts_convert fold f next = (cs, s) ->
    NoDup (map fst (ts_map s)) /\ (next <= ts_next s)%nat /\
    (forall v, In v (map fst (ts_map s)) -> vty v = BOOLEAN /\ (next <= vid v < ts_next s)%nat).
  Proof.
    intros Un Fv E. unfold ts_convert in E.
    destruct (ts_visit fold f {| ts_next := next; ts_map := [] |}) as [head s1] eqn:E1.
    assert (K0 : ts_ok (fun v => (vid v < next)%nat) {| ts_next := next; ts_map := [] |}).
    { constructor; simpl; [constructor|auto|tauto]. }
    destruct (ts_visit_spec _ f Un Fv _ _ _ K0 E1) as (K1 & L1 & P1 & T1).
    injection E as _ <-.
    assert (W : forall m, wfmap (fun v => (vid v < next)%nat) m -> NoDup (map fst m) /\ forall v, In v (map fst m) -> vty v = BOOLEAN /\ (next <= vid v)%nat).
    { induction 1; simpl; [split; [constructor|tauto]|]. destruct IHwfmap. split; [constructor; auto|].
      intros v [<-|Hv]; auto. split; auto. lia. }
    destruct (W _ (to_wf _ _ K1)) as [W1 W2]. split; auto. split; [apply L1|].
    intros v Hv. destruct (W2 v Hv). split; auto. split; auto. now apply (to_lt _ _ K1).
  Qed.
End P.
