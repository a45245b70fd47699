(** What the clauses say about an assertion, for any truth assignment of its atoms. *)
From Coq Require Import ZArith Reals Lra Lia List Bool Classical.
From Flocq Require Import IEEE754.BinarySingleNaN.
From Verif Require Import Dbl DblProofs Syntax Sem SemProofs SpecForm FormulaCons FormulaConsProofs Nnf NnfProofs PredAbs PredAbsProofs Tseitin TseitinProofs IteElim IteElimProofs SatReach Scoped IEval Sat SatSem CdclProofs Wff.
Import ListNotations.

(** A truth value for every formula that respects the connectives. *)
Record hom (E : formula -> Prop) : Prop := {
  h_true : E FTrue; h_false : ~ E FFalse;
  h_not : forall f, E (FNot f) <-> ~ E f;
  h_and : forall fs, E (FAnd fs) <-> forall g, In g fs -> E g;
  h_or : forall fs, E (FOr fs) <-> exists g, In g fs /\ E g;
  h_rel : forall o a b, E (FRel (neg_relop o) a b) <-> ~ E (FRel o a b) }.

Fixpoint qf (f : formula) : bool :=
  match f with FTrue | FFalse | FVar _ | FRel _ _ _ => true | FAnd fs | FOr fs => forallb qf fs | FNot g => qf g | FForall _ _ => false end.
Lemma wf_qf q pv (bq : var -> Prop) f : (forall v, ~ bq v) -> wfF q pv bq f -> qf f = true.
Proof.
  intros Nb. induction f as [| | v | op a b | fs IH | fs IH | h IH | vs h IH] using formula_ind'; cbn [wfF qf]; auto; try tauto; [| |intros [[[v C] _] _]; destruct (Nb v C)].
  - rewrite Forall_forall in IH. intros H. apply forallb_forall. intros x Hx. apply IH; [exact Hx|]. clear IH. induction fs; cbn in *; [tauto|]. destruct H, Hx as [->|]; auto.
  - rewrite Forall_forall in IH. intros H. apply forallb_forall. intros x Hx. apply IH; [exact Hx|]. clear IH. induction fs; cbn in *; [tauto|]. destruct H, Hx as [->|]; auto.
Qed.

Lemma Forall2_impl {A B} (P Q : A -> B -> Prop) l r : (forall x y, P x y -> Q x y) -> Forall2 P l r -> Forall2 Q l r.
Proof. intros H. induction 1; constructor; auto. Qed.
(** The value of the terms is irrelevant here. *)
Definition M0 : interp := {| i_un := fun _ _ => 0%R; i_bin := fun _ _ _ => 0%R; i_uf := fun _ _ => 0%R; i_rc := fun _ _ => 0%R |}.

Section Hom.
  Variable E : formula -> Prop.
  Hypothesis HE : hom E.

  Lemma E_finserts_and fs s : E (FAnd (finserts fs s)) <-> E (FAnd fs) /\ E (FAnd s).
  Proof.
    rewrite !(h_and E HE). split.
    - intros H; split; intros g Hg; apply H, finserts_In; auto.
    - intros [H1 H2] g Hg. apply finserts_In in Hg. destruct Hg; auto.
  Qed.
  Lemma E_finsert_and f s : E (FAnd (finsert f s)) <-> E f /\ E (FAnd s).
  Proof.
    rewrite !(h_and E HE). split.
    - intros H; split; [apply H, finsert_In; auto|]. intros g Hg; apply H, finsert_In; auto.
    - intros [H1 H2] g Hg. apply finsert_In in Hg. destruct Hg as [->|]; auto.
  Qed.
  Lemma E_finserts_or fs s : E (FOr (finserts fs s)) <-> E (FOr fs) \/ E (FOr s).
  Proof.
    rewrite !(h_or E HE). split.
    - intros (g & Hg & H). apply finserts_In in Hg. destruct Hg; [left|right]; eauto.
    - intros [(g & Hg & H)|(g & Hg & H)]; exists g; split; auto; apply finserts_In; auto.
  Qed.
  Lemma E_finsert_or f s : E (FOr (finsert f s)) <-> E f \/ E (FOr s).
  Proof.
    rewrite !(h_or E HE). split.
    - intros (g & Hg & H). apply finsert_In in Hg. destruct Hg as [->|]; [left|right]; eauto.
    - intros [H|(g & Hg & H)]; [exists f|exists g]; split; auto; apply finsert_In; auto.
  Qed.
  Lemma E_and_nil : E (FAnd []). Proof. rewrite (h_and E HE). intros g []. Qed.
  Lemma E_or_nil : ~ E (FOr []). Proof. rewrite (h_or E HE). intros (g & [] & _). Qed.
  Lemma E_fset_and fs : E (FAnd (fset fs)) <-> E (FAnd fs).
  Proof. unfold fset. rewrite E_finserts_and. pose proof E_and_nil. tauto. Qed.
  Lemma E_fset_or fs : E (FOr (fset fs)) <-> E (FOr fs).
  Proof. unfold fset. rewrite E_finserts_or. pose proof E_or_nil. tauto. Qed.
  Lemma E_merge_conj f s : E (FAnd (merge_conj f s)) <-> E f /\ E (FAnd s).
  Proof. unfold merge_conj. destruct f; try apply E_finsert_and. apply E_finserts_and. Qed.
  Lemma E_merge_disj f s : E (FOr (merge_disj f s)) <-> E f \/ E (FOr s).
  Proof. unfold merge_disj. destruct f; try apply E_finsert_or. apply E_finserts_or. Qed.
  Lemma E_and_cons f l : E (FAnd (f :: l)) <-> E f /\ E (FAnd l).
  Proof. rewrite !(h_and E HE). cbn [In]. split; [intros H; split; auto|]. intros [H1 H2] g [<-|]; auto. Qed.
  Lemma E_or_cons f l : E (FOr (f :: l)) <-> E f \/ E (FOr l).
  Proof. rewrite !(h_or E HE). cbn [In]. split; [intros (g & [<-|Hg] & H); eauto|]. intros [H|(g & H1 & H2)]; eauto. Qed.

  Lemma E_mk_and f1 f2 : E (mk_and f1 f2) <-> E f1 /\ E f2.
  Proof.
    pose proof (h_true E HE). pose proof (h_false E HE). unfold mk_and.
    destruct (is_false f1) eqn:E1; [apply is_false_eq in E1; subst; tauto|].
    destruct (is_false f2) eqn:E2; [apply is_false_eq in E2; subst; tauto|].
    destruct (is_true f1) eqn:E3; [apply is_true_eq in E3; subst; tauto|].
    destruct (is_true f2) eqn:E4; [apply is_true_eq in E4; subst; tauto|].
    destruct (formula_eqb f1 f2) eqn:E5; [apply formula_eqb_eq in E5; subst; tauto|].
    assert (D : E (FAnd (fset [f1; f2])) <-> E f1 /\ E f2)
      by (rewrite E_fset_and, !E_and_cons; pose proof E_and_nil; tauto).
    destruct f1; destruct f2; try exact D; rewrite E_merge_conj; tauto.
  Qed.
  Lemma E_mk_or f1 f2 : E (mk_or f1 f2) <-> E f1 \/ E f2.
  Proof.
    pose proof (h_true E HE). pose proof (h_false E HE). unfold mk_or.
    destruct (is_true f1) eqn:E3; [apply is_true_eq in E3; subst; tauto|].
    destruct (is_true f2) eqn:E4; [apply is_true_eq in E4; subst; tauto|].
    destruct (is_false f1) eqn:E1; [apply is_false_eq in E1; subst; tauto|].
    destruct (is_false f2) eqn:E2; [apply is_false_eq in E2; subst; tauto|].
    destruct (formula_eqb f1 f2) eqn:E5; [apply formula_eqb_eq in E5; subst; tauto|].
    assert (D : E (FOr (fset [f1; f2])) <-> E f1 \/ E f2)
      by (rewrite E_fset_or, !E_or_cons; pose proof E_or_nil; tauto).
    destruct f1; destruct f2; try exact D; rewrite E_merge_disj; tauto.
  Qed.
  Lemma E_conj_loop fs ops :
    match conj_loop fs ops with
    | None => ~ E (FAnd fs)
    | Some ops' => E (FAnd ops') <-> E (FAnd fs) /\ E (FAnd ops)
    end.
  Proof.
    pose proof (h_true E HE) as Ht. pose proof (h_false E HE) as Hf.
    revert ops; induction fs as [|f fs IH]; intros ops; [cbn; pose proof E_and_nil; tauto|].
    cbn [conj_loop].
    destruct (is_false f) eqn:E1; [apply is_false_eq in E1; subst; rewrite E_and_cons; tauto|].
    destruct (is_true f) eqn:E3; [apply is_true_eq in E3; subst; specialize (IH ops);
      destruct (conj_loop fs ops); rewrite E_and_cons; tauto|].
    assert (D : match conj_loop fs (finsert f ops) with
                | Some ops' => E (FAnd ops') <-> E (FAnd (f :: fs)) /\ E (FAnd ops)
                | None => ~ E (FAnd (f :: fs)) end).
    { specialize (IH (finsert f ops)). destruct (conj_loop fs (finsert f ops)); rewrite ?IH, E_and_cons; [rewrite E_finsert_and|]; tauto. }
    destruct f; try exact D.
    specialize (IH (finserts fs0 ops)). destruct (conj_loop fs (finserts fs0 ops)); rewrite ?IH, E_and_cons; [rewrite E_finserts_and|]; tauto.
  Qed.
  Lemma E_mk_conj fs : E (mk_conj fs) <-> forall g, In g fs -> E g.
  Proof.
    rewrite <- (h_and E HE). generalize (E_conj_loop fs []). unfold mk_conj. pose proof (h_true E HE). pose proof (h_false E HE). pose proof E_and_nil.
    destruct (conj_loop fs []) as [[|f [|g l]]|]; rewrite ?E_and_cons; tauto.
  Qed.
  Lemma E_disj_loop fs ops :
    match disj_loop fs ops with
    | None => E (FOr fs)
    | Some ops' => E (FOr ops') <-> E (FOr fs) \/ E (FOr ops)
    end.
  Proof.
    pose proof (h_true E HE) as Ht. pose proof (h_false E HE) as Hf.
    revert ops; induction fs as [|f fs IH]; intros ops; [cbn; pose proof E_or_nil; tauto|].
    cbn [disj_loop].
    destruct (is_true f) eqn:E3; [apply is_true_eq in E3; subst; rewrite E_or_cons; tauto|].
    destruct (is_false f) eqn:E1; [apply is_false_eq in E1; subst; specialize (IH ops);
      destruct (disj_loop fs ops); rewrite E_or_cons; tauto|].
    assert (D : match disj_loop fs (finsert f ops) with
                | Some ops' => E (FOr ops') <-> E (FOr (f :: fs)) \/ E (FOr ops)
                | None => E (FOr (f :: fs)) end).
    { specialize (IH (finsert f ops)). destruct (disj_loop fs (finsert f ops)); rewrite ?IH, E_or_cons; [rewrite E_finsert_or|]; tauto. }
    destruct f; try exact D.
    specialize (IH (finserts fs0 ops)). destruct (disj_loop fs (finserts fs0 ops)); rewrite ?IH, E_or_cons; [rewrite E_finserts_or|]; tauto.
  Qed.
  Lemma E_mk_disj fs : E (mk_disj fs) <-> exists g, In g fs /\ E g.
  Proof.
    rewrite <- (h_or E HE). generalize (E_disj_loop fs []). unfold mk_disj. pose proof (h_true E HE). pose proof (h_false E HE). pose proof E_or_nil.
    destruct (disj_loop fs []) as [[|f [|g l]]|]; rewrite ?E_or_cons; tauto.
  Qed.
  Lemma E_mk_not f : E (mk_not f) <-> ~ E f.
  Proof.
    pose proof (h_true E HE). pose proof (h_false E HE).
    destruct f; cbn [mk_not]; try apply (h_not E HE); try tauto. rewrite (h_not E HE). split; [tauto|apply NNPP].
  Qed.
  Lemma E_mk_imply f g : E (mk_imply f g) <-> (E f -> E g).
  Proof. unfold mk_imply. rewrite E_mk_or, E_mk_not. destruct (classic (E f)); tauto. Qed.

  Lemma Forall2_iff l r : Forall2 (fun f g => E g <-> E f) l r -> ((forall g, In g r -> E g) <-> (forall f, In f l -> E f)) /\ ((exists g, In g r /\ E g) <-> (exists f, In f l /\ E f)).
  Proof.
    intros F. split; split.
    - intros H f Hf. destruct (Forall2_In_l _ _ _ _ F Hf) as (y & Hy & Q). apply Q, H, Hy.
    - intros H f Hf. destruct (Forall2_In_r _ _ _ _ F Hf) as (y & Hy & Q). apply Q, H, Hy.
    - intros (f & Hf & H). destruct (Forall2_In_r _ _ _ _ F Hf) as (y & Hy & Q). exists y. split; [exact Hy|]. apply Q, H.
    - intros (f & Hf & H). destruct (Forall2_In_l _ _ _ _ F Hf) as (y & Hy & Q). exists y. split; [exact Hy|]. apply Q, H.
  Qed.
  Lemma E_conj_fset l r : Forall2 (fun f g => E g <-> E f) l r -> (E (mk_conj (fset r)) <-> E (FAnd l)).
  Proof. intros F. rewrite E_mk_conj, (h_and E HE). rewrite <- (proj1 (Forall2_iff l r F)). split; intros H g Hg; apply H; [apply fset_In|apply (fset_In r g) in Hg]; exact Hg. Qed.
  Lemma E_disj_fset l r : Forall2 (fun f g => E g <-> E f) l r -> (E (mk_disj (fset r)) <-> E (FOr l)).
  Proof. intros F. rewrite E_mk_disj, (h_or E HE). rewrite <- (proj2 (Forall2_iff l r F)). split; intros (g & Hg & H); exists g; (split; [|exact H]); apply (fset_In r g); exact Hg. Qed.

  (** ** Tseitin *)
  Definition edefs (m : list (var * formula)) : Prop := forall b d, In (b, d) m -> (E (FVar b) <-> E d).
  Lemma smap_incl (fold : expr -> expr -> option dbl) l (P : formula -> formula -> ts_state -> Prop) :
    (forall f g s s', incl (ts_map s) (ts_map s') -> P f g s -> P f g s') ->
    (forall f, In f l -> forall s g s', ts_visit fold f s = (g, s') -> incl (ts_map s) (ts_map s') /\ P f g s') ->
    forall s r s', smap (ts_visit fold) l s = (r, s') -> incl (ts_map s) (ts_map s') /\ Forall2 (fun f g => P f g s') l r.
  Proof.
    intros Hm. induction l as [|f l IH]; intros H s r s' Es; cbn [smap] in Es; [injection Es as <- <-; split; [apply incl_refl|constructor]|].
    destruct (ts_visit fold f s) as [g s1] eqn:E1. destruct (smap (ts_visit fold) l s1) as [r1 s2] eqn:E2. injection Es as <- <-.
    destruct (H f (or_introl eq_refl) s g s1 E1) as [A1 A2]. destruct (IH (fun x Hx => H x (or_intror Hx)) s1 r1 s2 E2) as [B1 B2].
    split; [eapply incl_tran; eauto|]. constructor; [exact (Hm _ _ _ _ B1 A2)|exact B2].
  Qed.
  Definition etop (f g : formula) (s s' : ts_state) : Prop :=
    (s' = s /\ (E g <-> E f)) \/ exists b d rest, ts_map s' = (b, d) :: rest /\ g = FVar b /\ (edefs rest -> (E d <-> E f)).
  Lemma etop_post f g s s' : etop f g s s' -> edefs (ts_map s') -> (E g <-> E f).
  Proof.
    intros [[_ H]|(b & d & rest & H1 & -> & H3)] D; [exact H|]. rewrite H1 in D. rewrite (D b d (or_introl eq_refl)). apply H3. intros c e He. apply D. right. exact He.
  Qed.
  Lemma ts_visit_E fold f : qf f = true -> forall s g s', ts_visit fold f s = (g, s') -> incl (ts_map s) (ts_map s') /\ etop f g s s'.
  Proof.
    induction f as [| | v | op a b | fs IH | fs IH | h IH | vs h IH] using formula_ind'; intros Q s g s' Ev; cbn [ts_visit] in Ev; cbn [qf] in Q;
      try (injection Ev as <- <-; split; [apply incl_refl|]; left; split; [reflexivity|apply iff_refl]).
    - rewrite Forall_forall in IH. rewrite forallb_forall in Q. destruct (smap (ts_visit fold) fs s) as [ops s1] eqn:E1.
      destruct (smap_incl fold fs (fun f g s => edefs (ts_map s) -> (E g <-> E f))) with (s := s) (r := ops) (s' := s1) as [A F]; [| |exact E1|].
      { intros f0 g0 t t' Hi H D. apply H. intros b d Hb. apply D, Hi, Hb. }
      { intros f0 Hf t g0 t' Et. destruct (IH f0 Hf (Q f0 Hf) t g0 t' Et) as [B1 B2]. split; [exact B1|]. exact (etop_post _ _ _ _ B2). }
      cbn [ts_fresh ts_emplace] in Ev. injection Ev as <- <-. cbn [ts_map]. split; [apply incl_tl; exact A|]. right. exists (mkVar (ts_next s1) BOOLEAN), (mk_conj (fset ops)), (ts_map s1).
      split; [reflexivity|]. split; [reflexivity|]. intros D. apply E_conj_fset. eapply Forall2_impl; [|exact F]. cbn beta. intros x y H. exact (H D).
    - rewrite Forall_forall in IH. rewrite forallb_forall in Q. destruct (smap (ts_visit fold) fs s) as [ops s1] eqn:E1.
      destruct (smap_incl fold fs (fun f g s => edefs (ts_map s) -> (E g <-> E f))) with (s := s) (r := ops) (s' := s1) as [A F]; [| |exact E1|].
      { intros f0 g0 t t' Hi H D. apply H. intros b d Hb. apply D, Hi, Hb. }
      { intros f0 Hf t g0 t' Et. destruct (IH f0 Hf (Q f0 Hf) t g0 t' Et) as [B1 B2]. split; [exact B1|]. exact (etop_post _ _ _ _ B2). }
      cbn [ts_fresh ts_emplace] in Ev. injection Ev as <- <-. cbn [ts_map]. split; [apply incl_tl; exact A|]. right. exists (mkVar (ts_next s1) BOOLEAN), (mk_disj (fset ops)), (ts_map s1).
      split; [reflexivity|]. split; [reflexivity|]. intros D. apply E_disj_fset. eapply Forall2_impl; [|exact F]. cbn beta. intros x y H. exact (H D).
    - destruct (is_atomic h); [injection Ev as <- <-; split; [apply incl_refl|]; left; split; [reflexivity|apply iff_refl]|].
      cbn [ts_fresh] in Ev. destruct (ts_visit fold h _) as [g1 s2] eqn:E2. injection Ev as <- <-. destruct (IH Q _ _ _ E2) as [A B]. cbn [ts_map] in A.
      cbn [ts_emplace ts_map]. split; [apply incl_tl; exact A|]. right. exists (mkVar (ts_next s) BOOLEAN), (mk_not g1), (ts_map s2).
      split; [reflexivity|]. split; [reflexivity|]. intros D. rewrite E_mk_not, (h_not E HE). rewrite (etop_post _ _ _ _ B D). apply iff_refl.
    - discriminate.
  Qed.

  Lemma E_add_clause f cs : (forall c, In c (add_clause f cs) -> E c) <-> E f /\ (forall c, In c cs -> E c).
  Proof.
    unfold add_clause. destruct (is_true f) eqn:Ef.
    - apply is_true_eq in Ef. subst. pose proof (h_true E HE). tauto.
    - split.
      + intros H. split; [|intros c Hc]; apply H, in_or_app; [right; now left|auto].
      + intros [H1 H2] c Hc. apply in_app_or in Hc. destruct Hc as [|[<-|[]]]; auto.
  Qed.
  Lemma E_fold_add (h : formula -> formula) l : forall cs,
    (forall c, In c (fold_left (fun cs x => add_clause (h x) cs) l cs) -> E c) <->
    (forall x, In x l -> E (h x)) /\ (forall c, In c cs -> E c).
  Proof.
    induction l as [|x l IH]; intros cs; simpl; [intuition|].
    rewrite IH, E_add_clause. split.
    - intros [H1 [H2 H3]]. split; auto. intros y [<-|]; auto.
    - intros [H1 H2]. repeat split; auto.
  Qed.
  Lemma E_cnfize b f cs : cnfize b f = Some cs -> (forall c, In c cs -> E c) -> (E (FVar b) <-> E f).
  Proof.
    intros Ec. destruct f; try discriminate; unfold cnfize in Ec; injection Ec as <-.
    - rewrite E_add_clause, (E_fold_add (fun bi => mk_or (mk_not (FVar b)) bi)), E_mk_or, E_mk_disj, (h_and E HE). intros [H1 [H2 _]]. split.
      + intros Hb g Hg. specialize (H2 g Hg). apply E_mk_or in H2. rewrite E_mk_not in H2. tauto.
      + intros H. destruct H1 as [(g & Hg & H1)|H1]; auto. rewrite fset_In in Hg. apply in_map_iff in Hg.
        destruct Hg as (x & <- & Hx). apply (proj1 (E_mk_not x)) in H1. exfalso. auto.
    - rewrite (E_fold_add (fun nbi => mk_or nbi (FVar b))), E_add_clause, E_mk_or, (h_or E HE), (h_not E HE). intros [H1 [H2 _]]. split; [tauto|]. intros (g & Hg & H).
      assert (K : E (mk_or (mk_not g) (FVar b))) by (apply H1; rewrite fset_In; now apply in_map).
      rewrite E_mk_or, E_mk_not in K. tauto.
    - rewrite !E_add_clause, !E_mk_imply. tauto.
  Qed.
  Lemma E_get_clauses f : (forall c, In c (get_clauses f) -> E c) -> E f.
  Proof. destruct f; cbn [get_clauses]; try (intros H; apply H; now left). rewrite (h_and E HE). auto. Qed.
  Lemma E_cnfize_map h m : forall cs, cnfize_map h m = Some cs -> (forall c, In c cs -> E c) ->
     forall b f, In (b, f) m -> if var_eqb h b then E f else (E (FVar b) <-> E f).
  Proof.
    induction m as [|[b f] m IH]; intros cs Ec H b' f' Hin; cbn [cnfize_map] in Ec; [destruct Hin|].
    destruct (if var_eqb h b then Some (get_clauses f) else cnfize b f) as [c1|] eqn:E1; [|discriminate].
    destruct (cnfize_map h m) as [c2|] eqn:E2; [|discriminate]. injection Ec as <-.
    destruct Hin as [Hin|Hin]; [injection Hin as <- <-|apply (IH c2 eq_refl); [|exact Hin]; intros c Hc; apply H, in_or_app; auto].
    assert (K : forall c, In c c1 -> E c) by (intros c Hc; apply H, in_or_app; auto).
    destruct (var_eqb h b); [injection E1 as <-; exact (E_get_clauses f K)|exact (E_cnfize b f c1 E1 K)].
  Qed.
  Lemma ts_convert_E fold f next cs s : qf f = true -> unfolded fold f -> (forall v, In v (fvF f) -> (vid v < next)%nat) ->
    ts_convert fold f next = (Some cs, s) -> (forall c, In c cs -> E c) -> E f.
  Proof.
    intros Q U B Et H. assert (N : NoDup (map fst (ts_map s))) by (apply (ts_convert_fresh M0 fold f next (Some cs) s U B Et)).
    unfold ts_convert in Et. destruct (ts_visit fold f {| ts_next := next; ts_map := [] |}) as [head s1] eqn:E1.
    destruct (ts_visit_E fold f Q _ _ _ E1) as [_ T]. destruct T as [[T1 T2]|(h & d & rest & T1 & T2 & T3)].
    - subst s1. cbn [ts_map] in Et. injection Et as <- <-. apply T2, H. now left.
    - rewrite T1 in Et. subst head. injection Et as Et <-. change (cnfize_map h ((h, d) :: rest) = Some cs) in Et.
      pose proof (E_cnfize_map _ _ _ Et H) as HM. rewrite T1 in N. cbn [map fst] in N. inversion N as [|? ? Ni _]; subst.
      apply T3.
      + intros b e Hb. specialize (HM b e (or_intror Hb)). destruct (var_eqb h b) eqn:Ev; auto.
        apply var_eqb_eq in Ev. subst. exfalso. apply Ni. apply (in_map fst) in Hb. exact Hb.
      + specialize (HM h d (or_introl eq_refl)). assert (Eh : var_eqb h h = true) by now apply var_eqb_eq. now rewrite Eh in HM.
  Qed.

  (** ** Predicate abstraction *)
  Definition epa (f g : formula) (s : pa_state) : Prop := edefs (pa_map s) -> (E g <-> E f).
  Lemma epa_mono f g s s' : pa_le s s' -> epa f g s -> epa f g s'.
  Proof. intros [_ Hi] H D. apply H. intros b h Hb. apply D, Hi, Hb. Qed.
  Lemma pa_visit_E fold f : unfolded fold f -> forall s g s', pa_ok fold s -> pa_visit fold f s = (g, s') ->
    pa_ok fold s' /\ pa_le s s' /\ epa f g s'.
  Proof.
    induction f as [| | v | op a b | fs IH | fs IH | h IH | vs h IH] using formula_ind'; intros U s g s' K Ev.
    all: cbn [pa_visit] in Ev.
    all: destruct (pa_find _ s) as [b0|] eqn:F;
      [injection Ev as <- <-; apply pa_find_some in F; split; [exact K|]; split; [apply pa_le_refl|]; intros D; exact (D _ _ F)|].
    1-3: injection Ev as <- <-; split; [exact K|]; split; [apply pa_le_refl|]; intros D; apply iff_refl.
    - inversion U as [| | |? ? ? U'| | | |]; subst.
      assert (Pos : forall o, abs_key fold (FRel o a b) -> pa_atomic (FRel o a b) s = (g, s') ->
                 pa_ok fold s' /\ pa_le s s' /\ epa (FRel o a b) g s').
      { intros o A E'. destruct (pa_atomic_ok fold _ _ _ _ K A E') as (K' & L & b' & -> & Hb).
        split; [exact K'|]. split; [exact L|]. intros D. exact (D _ _ Hb). }
      assert (Neg : forall o o', abs_key fold (FRel o' a b) -> neg_relop o = o' -> pa_neg_atomic (mk_rel fold o' a b) s = (g, s') ->
                 pa_ok fold s' /\ pa_le s s' /\ epa (FRel o a b) g s').
      { intros o o' A Eo E'. rewrite mk_rel_none in E' by auto. unfold pa_neg_atomic in E'.
        destruct (pa_atomic (FRel o' a b) s) as [g1 s1] eqn:E1. injection E' as <- <-.
        destruct (pa_atomic_ok fold _ _ _ _ K A E1) as (K' & L & b' & -> & Hb).
        split; auto. split; auto. intros D. rewrite E_mk_not, (D _ _ Hb). subst o'. rewrite (h_rel E HE o a b). split; [apply NNPP|tauto]. }
      unfold abs_key in *.
      destruct op; [apply Pos|apply (Neg RNeq REq)|apply (Neg RGt RLeq)|apply (Neg RGeq RLt)|apply Pos|apply Pos]; auto; eauto 8.
    - inversion U as [| | | |? U'| | |]; subst. rewrite Forall_forall in IH.
      destruct (smap (pa_visit fold) fs s) as [ops s1] eqn:E1. injection Ev as <- <-.
      destruct (smap_spec (pa_visit fold) pa_le epa (pa_ok fold) pa_le_refl pa_le_trans epa_mono fs
                  (fun f Hf s f' s' HI HE => IH f Hf (U' f Hf) s f' s' HI HE) s ops s1 K E1) as (K' & L & F2).
      split; auto. split; auto. intros D. apply E_conj_fset. eapply Forall2_impl; [|exact F2]. cbn beta. intros x y H. exact (H D).
    - inversion U as [| | | | |? U'| |]; subst. rewrite Forall_forall in IH.
      destruct (smap (pa_visit fold) fs s) as [ops s1] eqn:E1. injection Ev as <- <-.
      destruct (smap_spec (pa_visit fold) pa_le epa (pa_ok fold) pa_le_refl pa_le_trans epa_mono fs
                  (fun f Hf s f' s' HI HE => IH f Hf (U' f Hf) s f' s' HI HE) s ops s1 K E1) as (K' & L & F2).
      split; auto. split; auto. intros D. apply E_disj_fset. eapply Forall2_impl; [|exact F2]. cbn beta. intros x y H. exact (H D).
    - inversion U as [| | | | | |? U'|]; subst. destruct (pa_visit fold h s) as [g1 s1] eqn:E1. injection Ev as <- <-.
      destruct (IH U' s g1 s1 K E1) as (K' & L & P). split; auto. split; auto.
      intros D. rewrite E_mk_not, (h_not E HE), (P D). apply iff_refl.
    - assert (A : abs_key fold (FForall vs h)) by (unfold abs_key; eauto 8).
      destruct (pa_atomic_ok fold _ _ _ _ K A Ev) as (K' & L & b' & -> & Hb).
      split; auto. split; auto. intros D. exact (D _ _ Hb).
  Qed.
  Lemma pa_all_E fold cs s gs s' : (forall f, In f cs -> unfolded fold f) -> pa_ok fold s -> smap (pa_convert fold) cs s = (gs, s') ->
    edefs (pa_map s') -> Forall2 (fun f g => E g <-> E f) cs gs.
  Proof.
    intros U K Es D. destruct (smap_spec (pa_visit fold) pa_le epa (pa_ok fold) pa_le_refl pa_le_trans epa_mono cs
                  (fun f Hf s f' s' HI HE => pa_visit_E fold f (U f Hf) s f' s' HI HE) s gs s' K Es) as (_ & _ & F2).
    eapply Forall2_impl; [|exact F2]. cbn beta. intros x y H. exact (H D).
  Qed.

  (** ** if-then-else elimination of a formula without if-then-else *)
  Lemma iteF_E fold K f : qf f = true -> hasIteF f = false -> unfolded fold f -> forall g s f' s', iteF fold K f g s = (f', s') ->
    it_added s' = it_added s /\ it_vars s' = it_vars s /\ it_next s' = it_next s /\ (E f' <-> E f).
  Proof.
    induction f as [| | v | op a b | fs IH | fs IH | h IH | vs h IH] using formula_ind'; intros Q I U g s f' s' Ei; cbn [qf] in Q; cbn [hasIteF] in I;
      try (cbn [iteF] in Ei; injection Ei as <- <-; repeat split; auto; fail).
    - rewrite iteF_rel in Ei. apply orb_false_iff in I. destruct I as [I1 I2]. rewrite (iteE_noite fold K a g s I1), (iteE_noite fold K b g s I2) in Ei. inversion U as [| | |? ? ? U'| | | |]; subst.
      unfold it_rel in Ei. rewrite mk_rel_none in Ei by auto. injection Ei as <- <-. repeat split; auto.
    - rewrite (iteF_conn fold K true fs g s) in Ei. rewrite Forall_forall in IH. rewrite forallb_forall in Q. inversion U as [| | | |? U'| | |]; subst.
      destruct (smap _ fs s) as [ops s1] eqn:E1. injection Ei as <- <-.
      assert (X : it_added s1 = it_added s /\ it_vars s1 = it_vars s /\ it_next s1 = it_next s /\ Forall2 (fun f g => E g <-> E f) fs ops).
      { revert s ops s1 E1. induction fs as [|f fs IHl]; intros s ops s1 E1; cbn [smap] in E1; [injection E1 as <- <-; repeat split; constructor|].
        destruct (iteF fold K f g s) as [f1 t] eqn:E2. destruct (smap _ fs t) as [r t2] eqn:E3. injection E1 as <- <-.
        assert (I1 : hasIteF f = false /\ existsb hasIteF fs = false) by (cbn [existsb] in I; apply orb_false_iff in I; exact I). destruct I1 as [I1 I2].
        destruct (IH f (or_introl eq_refl) (Q f (or_introl eq_refl)) I1 (U' f (or_introl eq_refl)) g s f1 t E2) as (A1 & A2 & A3 & A4).
        destruct (IHl (fun x Hx => IH x (or_intror Hx)) (fun x Hx => Q x (or_intror Hx)) I2 (ro_and _ _ (fun x Hx => U' x (or_intror Hx))) (fun x Hx => U' x (or_intror Hx)) t r t2 E3) as (B1 & B2 & B3 & B4).
        split; [congruence|]. split; [congruence|]. split; [congruence|]. constructor; auto. }
      destruct X as (A1 & A2 & A3 & A4). repeat split; auto; apply E_conj_fset; exact A4.
    - rewrite (iteF_conn fold K false fs g s) in Ei. rewrite Forall_forall in IH. rewrite forallb_forall in Q. inversion U as [| | | | |? U'| |]; subst.
      destruct (smap _ fs s) as [ops s1] eqn:E1. injection Ei as <- <-.
      assert (X : it_added s1 = it_added s /\ it_vars s1 = it_vars s /\ it_next s1 = it_next s /\ Forall2 (fun f g => E g <-> E f) fs ops).
      { revert s ops s1 E1. induction fs as [|f fs IHl]; intros s ops s1 E1; cbn [smap] in E1; [injection E1 as <- <-; repeat split; constructor|].
        destruct (iteF fold K f g s) as [f1 t] eqn:E2. destruct (smap _ fs t) as [r t2] eqn:E3. injection E1 as <- <-.
        assert (I1 : hasIteF f = false /\ existsb hasIteF fs = false) by (cbn [existsb] in I; apply orb_false_iff in I; exact I). destruct I1 as [I1 I2].
        destruct (IH f (or_introl eq_refl) (Q f (or_introl eq_refl)) I1 (U' f (or_introl eq_refl)) g s f1 t E2) as (A1 & A2 & A3 & A4).
        destruct (IHl (fun x Hx => IH x (or_intror Hx)) (fun x Hx => Q x (or_intror Hx)) I2 (ro_or _ _ (fun x Hx => U' x (or_intror Hx))) (fun x Hx => U' x (or_intror Hx)) t r t2 E3) as (B1 & B2 & B3 & B4).
        split; [congruence|]. split; [congruence|]. split; [congruence|]. constructor; auto. }
      destruct X as (A1 & A2 & A3 & A4). repeat split; auto; apply E_disj_fset; exact A4.
    - rewrite iteF_not in Ei. inversion U as [| | | | | |? U'|]; subst. destruct (iteF fold K h g s) as [h1 s1] eqn:E1. injection Ei as <- <-.
      destruct (IH Q I U' g s h1 s1 E1) as (A1 & A2 & A3 & A4). repeat split; auto; rewrite E_mk_not, (h_not E HE); tauto.
    - discriminate.
  Qed.
  Lemma process_E fold K f n g s : qf f = true -> hasIteF f = false -> unfolded fold f -> ite_process fold K f n = (g, s) ->
    it_vars s = [] /\ it_next s = n /\ (E g -> E f).
  Proof.
    intros Q I U Ep. unfold ite_process in Ep. destruct (iteF fold K f FTrue (it_init n)) as [f' s1] eqn:E1. injection Ep as <- <-.
    destruct (iteF_E fold K f Q I U _ _ _ _ E1) as (A1 & A2 & A3 & A4). split; [exact A2|]. split; [exact A3|].
    unfold it_result. rewrite A1. cbn [it_init it_added]. destruct (formula_eqb f f' && true); [auto|]. cbn [mk_conj_vec fold_left]. rewrite E_mk_and. tauto.
  Qed.

  (** ** Clauses *)
  Lemma add_clause_E f s s' : sat_inv s -> sat_add_clause f s = Some s' ->
    (forall L, In L (sv_vec (ss_clauses s')) -> cl_true (fun v => E (FVar v)) s' L) -> E f.
  Proof.
    intros I Ea H. unfold sat_add_clause in Ea. destruct (make_sat_vars_spec (fvF f) s I) as (I1 & X1 & C1 & P1 & T1 & D1).
    set (s1 := fold_left make_sat_var (fvF f) s) in *. destruct (lits_of s1 (clause_lits f)) as [L|] eqn:EL; cbn [bind] in Ea; [|discriminate]. injection Ea as <-.
    apply lits_of_spec in EL. destruct (H L) as (l & Hl & v & Hs & Hv).
    { cbn [with_clause ss_clauses sv_push_back sv_vec]. apply in_or_app. right. left. reflexivity. }
    destruct (Forall2_In_r _ _ _ _ EL Hl) as (g & Hg & El). apply lit_of_spec in El. destruct El as (w & Ew & Eg).
    apply (iv_sat s1 I1) in Ew. change (sym_of (with_clause L s1) (fst l)) with (sym_of s1 (fst l)) in Hs.
    assert (w = v) by (destruct Ew as [_ Ew]; congruence). subst w.
    assert (Tg : E g) by (subst g; destruct (snd l); [apply Hv; reflexivity|rewrite (h_not E HE), Hv; discriminate]).
    destruct f; cbn [clause_lits] in Hg; try (destruct Hg as [->|[]]; exact Tg). rewrite (h_or E HE). eauto.
  Qed.
End Hom.

(** Later clauses keep the earlier ones. *)
Lemma cl_true_back P s s' L : sat_inv s -> sat_ext s s' -> In L (sv_vec (ss_clauses s)) -> cl_true P s' L -> cl_true P s L.
Proof.
  intros I X HL (l & Hl & v & A & B). exists l. split; [exact Hl|]. destruct (iv_cls s I L l HL Hl) as [w Hw]. pose proof (xe_sym _ _ X _ _ Hw). exists v. split; [congruence|exact B].
Qed.
Lemma add_clauses_E gs : forall s s', sat_inv s -> sat_add_clauses gs s = Some s' -> incl (sv_vec (ss_clauses s)) (sv_vec (ss_clauses s')) /\
  forall E, hom E -> (forall L, In L (sv_vec (ss_clauses s')) -> cl_true (fun v => E (FVar v)) s' L) -> forall g, In g gs -> E g.
Proof.
  induction gs as [|g gs IH]; intros s s' I Ea; cbn [sat_add_clauses] in Ea; [injection Ea as <-; split; [apply incl_refl|intros E HE H x []]|].
  destruct (sat_add_clause g s) as [s1|] eqn:E1; cbn [bind] in Ea; [|discriminate].
  destruct (add_clause_spec M0 g s s1 I E1) as (I1 & X1 & _ & _ & _ & _ & L & EL).
  destruct (add_clauses_spec M0 gs s1 s' I1 Ea) as (I2 & X2 & _).
  destruct (IH s1 s' I1 Ea) as [J1 J2]. split.
  - intros L' HL'. apply J1. rewrite EL. apply in_or_app. left. exact HL'.
  - intros E HE H x [<-|Hx]; [|exact (J2 E HE H x Hx)]. apply (add_clause_E E HE g s s1 I E1). intros L' HL'. apply (cl_true_back _ s1 s' L' I1 X2 HL'). apply H, J1, HL'.
Qed.
(** The clauses of an asserted formula imply it. *)
Lemma add_formula_E fold f n s s' n' : sok fold s n -> qf f = true -> unfolded fold f -> (forall v, In v (fvF f) -> vid v < n) -> sat_add_formula fold f n s = Some (s', n') ->
  sat_ext s s' /\ incl (sv_vec (ss_clauses s)) (sv_vec (ss_clauses s')) /\
  forall E, hom E -> edefs E (ss_pa s') -> (forall L, In L (sv_vec (ss_clauses s')) -> cl_true (fun v => E (FVar v)) s' L) -> E f.
Proof.
  intros [I K] Q U B Ea. unfold sat_add_formula in Ea. destruct (ts_convert fold f n) as [[cs|] t] eqn:Et; cbn [bind] in Ea; [|discriminate].
  destruct (ts_convert_fresh M0 fold f n (Some cs) t U B Et) as (_ & N2 & _).
  destruct (smap (pa_convert fold) cs _) as [gs q] eqn:Eq. destruct (sat_add_clauses gs _) as [s2|] eqn:E2; cbn [bind] in Ea; [|discriminate]. injection Ea as <- <-.
  cbn [with_tse ss_pa] in Eq.
  assert (K0 : pa_ok fold {| pa_next := ts_next t; pa_map := ss_pa s |}) by (apply (pa_ok_later fold n); [exact K|lia]).
  set (s0 := with_pa _ _) in *. assert (I0 : sat_inv s0) by (destruct I as [A1 A2 A3]; split; assumption).
  destruct (add_clauses_spec M0 gs s0 s2 I0 E2) as (I1 & X1 & P1 & _). destruct (add_clauses_E gs s0 s2 I0 E2) as [J1 J2].
  split; [destruct X1 as [Y1 Y2 Y3]; split; assumption|]. split; [exact J1|].
  intros E HE D H. apply (ts_convert_E E HE fold f n cs t Q U B Et). intros c Hc.
  pose proof (pa_all_E E HE fold cs _ gs q (ts_convert_U fold f n cs t Et U) K0 Eq) as F. rewrite P1 in D. specialize (F D).
  destruct (Forall2_In_l _ _ _ _ F Hc) as (g & Hg & Hi). apply Hi. exact (J2 E HE H g Hg).
Qed.
