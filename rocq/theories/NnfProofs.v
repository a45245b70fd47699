(** NNF and naive CNF preserve meaning and produce the advertised shape. *)
From Coq Require Import ZArith Reals Lra Lia List Bool Classical.
From Verif Require Import Dbl DblProofs Syntax Sem SemProofs FormulaCons FormulaConsProofs SpecForm Nnf.
Import ListNotations.
Local Open Scope R_scope.

Section P.
  Variable M : interp.
  Variable fold : expr -> expr -> option dbl.
  Notation hd := (holds M).

  Lemma mk_rel_none op a b : fold a b = None -> mk_rel fold op a b = FRel op a b.
  Proof. intros H. unfold mk_rel. now rewrite H. Qed.

  Lemma conj_map_holds (h : formula -> formula) fs rho :
    hd (mk_conj (fset (map h fs))) rho <-> forall g, In g fs -> hd (h g) rho.
  Proof.
    rewrite mk_conj_holds. split.
    - intros H g Hg. apply H, fset_In, in_map, Hg.
    - intros H g Hg. apply fset_In, in_map_iff in Hg. destruct Hg as (x & <- & Hx). auto.
  Qed.
  Lemma disj_map_holds (h : formula -> formula) fs rho :
    hd (mk_disj (fset (map h fs))) rho <-> exists g, In g fs /\ hd (h g) rho.
  Proof.
    rewrite mk_disj_holds. split.
    - intros (g & Hg & H). apply fset_In, in_map_iff in Hg. destruct Hg as (x & <- & Hx). eauto.
    - intros (g & Hg & H). exists (h g). split; auto. apply fset_In, in_map, Hg.
  Qed.

  Lemma nnf_holds push f : unfolded fold f -> forall pol rho,
    hd (nnf fold push f pol) rho <-> (if pol then hd f rho else ~ hd f rho).
  Proof.
    induction f as [| | v | op a b | fs IH | fs IH | g IH | vs g IH] using formula_ind'; intros U pol rho.
    - destruct pol; simpl; tauto.
    - destruct pol; simpl; tauto.
    - destruct pol; [reflexivity|]. cbn [nnf]. apply mk_not_holds.
    - cbn [nnf]. destruct pol; [reflexivity|]. destruct push; [|apply mk_not_holds].
      inversion U; subst.
      assert (K : match op with
               | REq => mk_rel fold RNeq a b | RNeq => mk_rel fold REq a b
               | RGt => mk_rel fold RLeq a b | RGeq => mk_rel fold RLt a b
               | RLt => mk_rel fold RGeq a b | RLeq => mk_rel fold RGt a b end
               = FRel (neg_relop op) a b) by (destruct op; now apply mk_rel_none).
      rewrite K. cbn [holds]. apply neg_relop_holds.
    - inversion U; subst. rewrite Forall_forall in IH. cbn [nnf]. destruct pol.
      + rewrite conj_map_holds, holds_and_in. split; intros H g Hg; [apply (IH g Hg (H0 g Hg) true)|apply (IH g Hg (H0 g Hg) true)]; auto.
      + rewrite disj_map_holds, holds_and_in. split.
        * intros (g & Hg & H) C. apply (IH g Hg (H0 g Hg) false) in H; auto.
        * intros H. apply not_all_ex_not in H. destruct H as (g & H). apply imply_to_and in H.
          destruct H as [Hg H]. exists g; split; auto. apply (IH g Hg (H0 g Hg) false). auto.
    - inversion U; subst. rewrite Forall_forall in IH. cbn [nnf]. destruct pol.
      + rewrite disj_map_holds, holds_or_in. split; intros (g & Hg & H); exists g; split; auto; apply (IH g Hg (H0 g Hg) true); auto.
      + rewrite conj_map_holds, holds_or_in. split.
        * intros H (g & Hg & C). specialize (H g Hg). apply (IH g Hg (H0 g Hg) false) in H. auto.
        * intros H g Hg. apply (IH g Hg (H0 g Hg) false). intro C. apply H. eauto.
    - inversion U; subst. cbn [nnf]. rewrite (IH H0 (negb pol) rho). destruct pol; simpl; [tauto|].
      split; [tauto|apply NNPP].
    - destruct pol; [reflexivity|]. cbn [nnf]. apply mk_not_holds.
  Qed.

  (** What the set-level constructors return, structurally. *)
  Lemma conj_loop_In fs : forall ops r, conj_loop fs ops = Some r ->
    forall g, In g r -> In g ops \/ (In g fs /\ is_conj g = false /\ g <> FTrue /\ g <> FFalse)
                                 \/ exists gs, In (FAnd gs) fs /\ In g gs.
  Proof.
    induction fs as [|f fs IH]; intros ops r E g Hg; cbn [conj_loop] in E.
    - injection E as <-. auto.
    - destruct (is_false f) eqn:E1; [discriminate|].
      assert (Hff : f <> FFalse) by (intros ->; discriminate).
      destruct (is_true f) eqn:E2.
      + destruct (IH _ _ E g Hg) as [H|[(H & H')|(gs & H & H')]]; auto.
        * right; left; split; [right|]; auto.
        * right; right; exists gs; split; auto. now right.
      + assert (Hft : f <> FTrue) by (intros ->; discriminate).
        destruct (is_conj f) eqn:E3.
        * destruct f; try discriminate.
          destruct (IH _ _ E g Hg) as [H|[(H & H')|(gs & H & H')]].
          -- apply finserts_In in H. destruct H; auto. right; right. exists fs0. split; auto. now left.
          -- right; left; split; [right|]; auto.
          -- right; right; exists gs; split; auto. now right.
        * assert (E' : conj_loop fs (finsert f ops) = Some r) by (destruct f; try exact E; discriminate).
          destruct (IH _ _ E' g Hg) as [H|[(H & H')|(gs & H & H')]].
          -- apply finsert_In in H. destruct H as [->|]; auto. right; left. repeat split; auto. now left.
          -- right; left; split; [right|]; auto.
          -- right; right; exists gs; split; auto. now right.
  Qed.
  Lemma disj_loop_In fs : forall ops r, disj_loop fs ops = Some r ->
    forall g, In g r -> In g ops \/ (In g fs /\ is_disj g = false /\ g <> FTrue /\ g <> FFalse)
                                 \/ exists gs, In (FOr gs) fs /\ In g gs.
  Proof.
    induction fs as [|f fs IH]; intros ops r E g Hg; cbn [disj_loop] in E.
    - injection E as <-. auto.
    - destruct (is_true f) eqn:E1; [discriminate|].
      assert (Hff : f <> FTrue) by (intros ->; discriminate).
      destruct (is_false f) eqn:E2.
      + destruct (IH _ _ E g Hg) as [H|[(H & H')|(gs & H & H')]]; auto.
        * right; left; split; [right|]; auto.
        * right; right; exists gs; split; auto. now right.
      + assert (Hft : f <> FFalse) by (intros ->; discriminate).
        destruct (is_disj f) eqn:E3.
        * destruct f; try discriminate.
          destruct (IH _ _ E g Hg) as [H|[(H & H')|(gs & H & H')]].
          -- apply finserts_In in H. destruct H; auto. right; right. exists fs0. split; auto. now left.
          -- right; left; split; [right|]; auto.
          -- right; right; exists gs; split; auto. now right.
        * assert (E' : disj_loop fs (finsert f ops) = Some r) by (destruct f; try exact E; discriminate).
          destruct (IH _ _ E' g Hg) as [H|[(H & H')|(gs & H & H')]].
          -- apply finsert_In in H. destruct H as [->|]; auto. right; left. repeat split; auto. now left.
          -- right; left; split; [right|]; auto.
          -- right; right; exists gs; split; auto. now right.
  Qed.

  (** Generic preservation: a predicate closed under And/Or (and their inverses) is preserved. *)
  Lemma mk_conj_pres (P : formula -> Prop) fs :
    P FTrue -> P FFalse -> (forall gs, (forall g, In g gs -> P g) -> P (FAnd gs)) ->
    (forall gs, P (FAnd gs) -> forall g, In g gs -> P g) ->
    (forall g, In g fs -> P g) -> P (mk_conj fs).
  Proof.
    intros PT PF PA PAi H. unfold mk_conj. destruct (conj_loop fs []) as [r|] eqn:E; auto.
    assert (K : forall g, In g r -> P g).
    { intros g Hg. destruct (conj_loop_In _ _ _ E g Hg) as [C|[(C & _)|(gs & C & D)]]; [destruct C|auto|].
      exact (PAi gs (H _ C) g D). }
    destruct r as [|x [|y l]]; auto. apply K. now left.
  Qed.
  Lemma mk_disj_pres (P : formula -> Prop) fs :
    P FTrue -> P FFalse -> (forall gs, (forall g, In g gs -> P g) -> P (FOr gs)) ->
    (forall gs, P (FOr gs) -> forall g, In g gs -> P g) ->
    (forall g, In g fs -> P g) -> P (mk_disj fs).
  Proof.
    intros PT PF PA PAi H. unfold mk_disj. destruct (disj_loop fs []) as [r|] eqn:E; auto.
    assert (K : forall g, In g r -> P g).
    { intros g Hg. destruct (disj_loop_In _ _ _ E g Hg) as [C|[(C & _)|(gs & C & D)]]; [destruct C|auto|].
      exact (PAi gs (H _ C) g D). }
    destruct r as [|x [|y l]]; auto. apply K. now left.
  Qed.
  Lemma merge_disj_In f s g : In g (merge_disj f s) ->
    In g s \/ (exists gs, f = FOr gs /\ In g gs) \/ (g = f /\ is_disj f = false).
  Proof.
    unfold merge_disj. destruct f; intros H; try (apply finsert_In in H; destruct H as [->|]; auto; fail).
    apply finserts_In in H. destruct H; eauto.
  Qed.
  Lemma merge_conj_In f s g : In g (merge_conj f s) ->
    In g s \/ (exists gs, f = FAnd gs /\ In g gs) \/ (g = f /\ is_conj f = false).
  Proof.
    unfold merge_conj. destruct f; intros H; try (apply finsert_In in H; destruct H as [->|]; auto; fail).
    apply finserts_In in H. destruct H; eauto.
  Qed.
  Lemma mk_or_pres (P : formula -> Prop) f1 f2 :
    P FTrue -> (forall gs, (forall g, In g gs -> P g) -> P (FOr gs)) ->
    (forall gs, P (FOr gs) -> forall g, In g gs -> P g) -> P f1 -> P f2 -> P (mk_or f1 f2).
  Proof.
    intros PT PO POi H1 H2. unfold mk_or.
    destruct (is_true f1); auto. destruct (is_true f2); auto.
    destruct (is_false f1); auto. destruct (is_false f2); auto.
    destruct (formula_eqb f1 f2); auto.
    assert (D : P (FOr (fset [f1; f2]))).
    { apply PO. intros g Hg. rewrite fset_In in Hg; destruct Hg as [<-|[<-|[]]]; auto. }
    destruct f1; destruct f2; try exact D; apply PO; intros g Hg;
      apply merge_disj_In in Hg; destruct Hg as [Hg|[(gs & Ee & Hg)|[Hg _]]]; try discriminate; try (injection Ee as <-); try subst g; eauto.
  Qed.
  Lemma mk_and_pres (P : formula -> Prop) f1 f2 :
    P FFalse -> (forall gs, (forall g, In g gs -> P g) -> P (FAnd gs)) ->
    (forall gs, P (FAnd gs) -> forall g, In g gs -> P g) -> P f1 -> P f2 -> P (mk_and f1 f2).
  Proof.
    intros PT PO POi H1 H2. unfold mk_and.
    destruct (is_false f1); auto. destruct (is_false f2); auto.
    destruct (is_true f1); auto. destruct (is_true f2); auto.
    destruct (formula_eqb f1 f2); auto.
    assert (D : P (FAnd (fset [f1; f2]))).
    { apply PO. intros g Hg. rewrite fset_In in Hg; destruct Hg as [<-|[<-|[]]]; auto. }
    destruct f1; destruct f2; try exact D; apply PO; intros g Hg;
      apply merge_conj_In in Hg; destruct Hg as [Hg|[(gs & Ee & Hg)|[Hg _]]]; try discriminate; try (injection Ee as <-); try subst g; eauto.
  Qed.

  Lemma nnf_and_inv push gs : is_nnf push (FAnd gs) -> forall g, In g gs -> is_nnf push g.
  Proof. intros H; inversion H; subst; auto. inversion H0. Qed.
  Lemma nnf_or_inv push gs : is_nnf push (FOr gs) -> forall g, In g gs -> is_nnf push g.
  Proof. intros H; inversion H; subst; auto. inversion H0. Qed.

  Lemma nnf_shape push f : unfolded fold f -> forall pol, is_nnf push (nnf fold push f pol).
  Proof.
    induction f as [| | v | op a b | fs IH | fs IH | g IH | vs g IH] using formula_ind'; intros U pol.
    - destruct pol; constructor.
    - destruct pol; constructor.
    - destruct pol; cbn [nnf mk_not]; [apply nf_atom|apply nf_neg]; try constructor. intros _ o a b; discriminate.
    - inversion U; subst. cbn [nnf]. destruct pol; [apply nf_atom; constructor|].
      destruct push.
      + destruct op; rewrite mk_rel_none by auto; apply nf_atom; constructor.
      + cbn [mk_not]. apply nf_neg; [constructor|discriminate].
    - inversion U; subst. rewrite Forall_forall in IH. cbn [nnf].
      assert (K : forall g, In g (fset (map (fun g => nnf fold push g pol) fs)) -> is_nnf push g).
      { intros g Hg. apply fset_In, in_map_iff in Hg. destruct Hg as (x & <- & Hx). apply IH; auto. apply H0; auto. }
      destruct pol; [apply mk_conj_pres|apply mk_disj_pres]; first [apply nf_true|apply nf_false|exact (nf_and push)|exact (nf_or push)|exact (nnf_and_inv push)|exact (nnf_or_inv push)|exact K].
    - inversion U; subst. rewrite Forall_forall in IH. cbn [nnf].
      assert (K : forall g, In g (fset (map (fun g => nnf fold push g pol) fs)) -> is_nnf push g).
      { intros g Hg. apply fset_In, in_map_iff in Hg. destruct Hg as (x & <- & Hx). apply IH; auto. apply H0; auto. }
      destruct pol; [apply mk_disj_pres|apply mk_conj_pres]; first [apply nf_true|apply nf_false|exact (nf_and push)|exact (nf_or push)|exact (nnf_and_inv push)|exact (nnf_or_inv push)|exact K].
    - inversion U; subst. cbn [nnf]. auto.
    - destruct pol; cbn [nnf mk_not]; [apply nf_atom|apply nf_neg]; try constructor. intros _ o a b; discriminate.
  Qed.

  Lemma ro_and_inv P gs : rels_ok P (FAnd gs) -> forall g, In g gs -> rels_ok P g.
  Proof. intros H; inversion H; auto. Qed.
  Lemma ro_or_inv P gs : rels_ok P (FOr gs) -> forall g, In g gs -> rels_ok P g.
  Proof. intros H; inversion H; auto. Qed.
  Lemma ro_not_inv P g : rels_ok P (FNot g) -> rels_ok P g.
  Proof. intros H; inversion H; auto. Qed.
  Lemma ro_all_inv P vs g : rels_ok P (FForall vs g) -> rels_ok P g.
  Proof. intros H; inversion H; auto. Qed.

  Lemma mk_not_ro P f : rels_ok P f -> rels_ok P (mk_not f).
  Proof. intros H; destruct f; simpl; try (now constructor). now apply ro_not_inv. Qed.

  Lemma unf_rel o a b : fold a b = None -> unfolded fold (FRel o a b).
  Proof. intros H. apply ro_rel. exact H. Qed.
  Local Hint Resolve unf_rel : core.

  Lemma nnf_unfolded push f : unfolded fold f -> forall pol, unfolded fold (nnf fold push f pol).
  Proof.
    unfold unfolded.
    induction f as [| | v | op a b | fs IH | fs IH | g IH | vs g IH] using formula_ind'; intros U pol.
    - destruct pol; constructor.
    - destruct pol; constructor.
    - destruct pol; cbn [nnf]; auto using mk_not_ro.
    - inversion U; subst. cbn [nnf]. destruct pol; auto. destruct push; auto using mk_not_ro.
      destruct op; rewrite mk_rel_none by auto; now apply unf_rel.
    - inversion U; subst. rewrite Forall_forall in IH. cbn [nnf].
      assert (K : forall g, In g (fset (map (fun g => nnf fold push g pol) fs)) -> unfolded fold g).
      { intros g Hg. apply fset_In, in_map_iff in Hg. destruct Hg as (x & <- & Hx). apply IH; auto. }
      destruct pol; [apply mk_conj_pres|apply mk_disj_pres]; first [apply ro_true|apply ro_false|exact (ro_and _)|exact (ro_or _)|exact (ro_and_inv _)|exact (ro_or_inv _)|exact K].
    - inversion U; subst. rewrite Forall_forall in IH. cbn [nnf].
      assert (K : forall g, In g (fset (map (fun g => nnf fold push g pol) fs)) -> unfolded fold g).
      { intros g Hg. apply fset_In, in_map_iff in Hg. destruct Hg as (x & <- & Hx). apply IH; auto. }
      destruct pol; [apply mk_disj_pres|apply mk_conj_pres]; first [apply ro_true|apply ro_false|exact (ro_and _)|exact (ro_or _)|exact (ro_and_inv _)|exact (ro_or_inv _)|exact K].
    - inversion U; subst. cbn [nnf]. auto.
    - destruct pol; cbn [nnf]; auto using mk_not_ro.
  Qed.

  (** ** Naive CNF *)
  Lemma or_step_holds c1 c2 rho : hd (or_step c1 c2) rho <-> hd c1 rho \/ hd c2 rho.
  Proof.
    unfold or_step. rewrite mk_conj_holds.
    assert (F : forall l (P : formula -> Prop), (forall g, In g (fset l) -> P g) <-> (forall g, In g l -> P g)).
    { intros l P; split; intros H g Hg; apply H; rewrite fset_In in *; auto. }
    rewrite F.
    assert (D : (forall g, In g [mk_or c1 c2] -> hd g rho) <-> hd c1 rho \/ hd c2 rho).
    { rewrite <- mk_or_holds. split; intros H; [apply H; now left|]. intros g [<-|[]]; auto. }
    assert (D1 : forall cs, (forall g, In g (map (fun c => mk_or c c2) cs) -> hd g rho)
                    <-> hd (FAnd cs) rho \/ hd c2 rho).
    { intros cs. rewrite holds_and_in. split.
      - intros H. destruct (classic (hd c2 rho)); auto. left. intros g Hg.
        specialize (H (mk_or g c2) (in_map _ _ _ Hg)). apply mk_or_holds in H. tauto.
      - intros H g Hg. apply in_map_iff in Hg. destruct Hg as (x & <- & Hx). apply mk_or_holds. destruct H; auto. }
    assert (D2 : forall cs, (forall g, In g (map (fun c => mk_or c1 c) cs) -> hd g rho)
                    <-> hd c1 rho \/ hd (FAnd cs) rho).
    { intros cs. rewrite holds_and_in. split.
      - intros H. destruct (classic (hd c1 rho)); auto. right. intros g Hg.
        specialize (H (mk_or c1 g) (in_map _ _ _ Hg)). apply mk_or_holds in H. tauto.
      - intros H g Hg. apply in_map_iff in Hg. destruct Hg as (x & <- & Hx). apply mk_or_holds. destruct H; auto. }
    destruct c1; destruct c2; try exact D; try apply D1; try apply D2.
    clear D D1 D2. rewrite !holds_and_in. split.
    - intros H. destruct (classic (forall g, In g fs -> hd g rho)) as [|C]; auto. right. intros c2 H2.
      apply not_all_ex_not in C. destruct C as (c1 & C). apply imply_to_and in C. destruct C as [C1 C2].
      assert (K : hd (mk_or c1 c2) rho).
      { apply H. apply in_flat_map. exists c1; split; auto. apply in_map_iff. eauto. }
      apply mk_or_holds in K. tauto.
    - intros H g Hg. apply in_flat_map in Hg. destruct Hg as (c1 & H1 & Hg).
      apply in_map_iff in Hg. destruct Hg as (c2 & <- & H2). apply mk_or_holds. destruct H; auto.
  Qed.
  Lemma fold_or_step_holds l : forall acc rho,
    hd (fold_left or_step l acc) rho <-> hd acc rho \/ exists g, In g l /\ hd g rho.
  Proof.
    induction l as [|f l IH]; intros acc rho; simpl.
    - split; [auto|]. intros [|(g & [] & _)]; auto.
    - rewrite IH, or_step_holds. split.
      + intros [[H|H]|(g & Hg & H)]; eauto 6.
      + intros [H|(g & [<-|Hg] & H)]; eauto 6.
  Qed.

  Lemma mk_forall_ext vs f g : (forall rho, hd f rho <-> hd g rho) ->
    forall rho, hd (mk_forall vs f) rho <-> hd (FForall vs g) rho.
  Proof.
    intros E rho. rewrite mk_forall_holds. simpl. split; intros H rho' H1 H2; apply E; apply H; auto.
  Qed.

  Lemma ncnf_holds n : forall f, unfolded fold f -> forall rho, hd (ncnf fold n f) rho <-> hd f rho.
  Proof.
    induction n as [n IHn] using (well_founded_induction lt_wf).
    induction f as [| | v | op a b | fs IH | fs IH | g IH | vs g IH] using formula_ind'; intros U rho.
    - destruct n; reflexivity.
    - destruct n; reflexivity.
    - destruct n; reflexivity.
    - inversion U; subst. assert (E : ncnf fold n (FRel op a b) = match op with
        | REq => mk_and (FRel RGeq a b) (FRel RLeq a b)
        | RNeq => mk_or (FRel RGt a b) (FRel RLt a b)
        | _ => FRel op a b end).
      { destruct n, op; simpl; rewrite ?mk_rel_none by auto; reflexivity. }
      rewrite E. destruct op; try reflexivity; rewrite ?mk_and_holds, ?mk_or_holds; simpl; lra.
    - inversion U; subst. rewrite Forall_forall in IH.
      assert (E : ncnf fold n (FAnd fs) = mk_conj (fset (map (ncnf fold n) fs))) by (destruct n; reflexivity).
      rewrite E, conj_map_holds, holds_and_in. split; intros H g Hg; apply (IH g Hg (H0 g Hg)); auto.
    - inversion U; subst. rewrite Forall_forall in IH.
      assert (E : ncnf fold n (FOr fs) = fold_left or_step (fset (map (ncnf fold n) fs)) FFalse) by (destruct n; reflexivity).
      rewrite E, fold_or_step_holds, holds_or_in. split.
      + intros [[]|(g & Hg & H)]. apply fset_In, in_map_iff in Hg. destruct Hg as (x & <- & Hx).
        exists x; split; auto. apply (IH x Hx (H0 x Hx)); auto.
      + intros (g & Hg & H). right. exists (ncnf fold n g). split; [apply fset_In, in_map, Hg|].
        apply (IH g Hg (H0 g Hg)); auto.
    - destruct n; reflexivity.
    - destruct n as [|m]; [reflexivity|]. inversion U; subst.
      assert (E : ncnf fold (S m) (FForall vs g) = mk_forall vs (ncnf fold m (nnf fold true g true))) by reflexivity.
      rewrite E. apply mk_forall_ext. intros rho'. rewrite IHn by (lia || now apply nnf_unfolded).
      apply (nnf_holds true g H0 true).
  Qed.

  Lemma naive_cnf_holds f : unfolded fold f -> forall rho, hd (naive_cnf fold f) rho <-> hd f rho.
  Proof.
    intros U rho. unfold naive_cnf. rewrite ncnf_holds by now apply nnf_unfolded.
    apply (nnf_holds true f U true).
  Qed.

  (** Shape *)
  Definition lits (f : formula) : Prop :=
    match f with
    | FTrue | FFalse => True
    | FOr gs => forall g, In g gs -> literal g
    | _ => literal f
    end.
  Lemma lits_clause f : lits f <-> clause f.
  Proof.
    split.
    - destruct f; simpl; intros H; try (now constructor); try (apply cl_lit; exact H).
    - intros H; inversion H; subst; simpl; auto. inversion H0; subst; simpl.
      + inversion H1; subst; simpl; constructor; constructor.
      + now apply li_neg.
  Qed.
  Lemma mk_or_clause f1 f2 : clause f1 -> clause f2 -> clause (mk_or f1 f2).
  Proof.
    rewrite <- !lits_clause. intros H1 H2. unfold mk_or.
    destruct (is_true f1) eqn:A1; auto. destruct (is_true f2) eqn:A2; simpl; auto.
    destruct (is_false f1) eqn:A3; auto. destruct (is_false f2) eqn:A4; auto.
    destruct (formula_eqb f1 f2) eqn:A5; auto.
    assert (D : literal f1 -> literal f2 -> lits (FOr (fset [f1; f2]))).
    { intros L1 L2. simpl. intros g Hg. rewrite (fset_In [f1; f2]) in Hg; destruct Hg as [<-|[<-|[]]]; auto. }
    destruct f1; try discriminate; destruct f2; try discriminate; try (apply D; assumption);
      simpl in *; intros g Hg;
      (apply finserts_In in Hg || apply finsert_In in Hg); destruct Hg as [Hg|Hg]; try subst g; auto.
  Qed.
  Definition clauses_of (f : formula) : Prop :=
    match f with FAnd gs => forall g, In g gs -> clause g | _ => clause f end.
  Lemma clauses_of_cnf f : clauses_of f <-> cnf f.
  Proof.
    split.
    - destruct f; simpl; intros H; try (apply cn_clause; exact H). now apply cn_and.
    - intros H; inversion H; subst; simpl; auto. destruct f; simpl; auto.
      inversion H0; subst. inversion H1; subst; inversion H2.
  Qed.
  Lemma mk_conj_cnf fs : (forall g, In g fs -> cnf g) -> cnf (mk_conj fs).
  Proof.
    intros H. unfold mk_conj. destruct (conj_loop fs []) as [r|] eqn:E; [|repeat constructor].
    assert (K : forall g, In g r -> clause g).
    { intros g Hg. destruct (conj_loop_In _ _ _ E g Hg) as [C|[(C & D & _)|(gs & C & D)]]; [destruct C| |].
      - specialize (H _ C). apply clauses_of_cnf in H. destruct g; simpl in *; auto; discriminate.
      - specialize (H _ C). apply clauses_of_cnf in H. simpl in H. auto. }
    destruct r as [|x [|y l]]; [repeat constructor|apply cn_clause, K; now left|now apply cn_and].
  Qed.
  Lemma or_step_cnf c1 c2 : cnf c1 -> cnf c2 -> cnf (or_step c1 c2).
  Proof.
    intros H1 H2. unfold or_step. apply mk_conj_cnf. intros g Hg. rewrite fset_In in Hg.
    apply clauses_of_cnf in H1. apply clauses_of_cnf in H2.
    assert (D : clause c1 -> clause c2 -> In g [mk_or c1 c2] -> cnf g).
    { intros L1 L2 [<-|[]]. apply cn_clause. now apply mk_or_clause. }
    assert (D1 : forall cs, (forall c, In c cs -> clause c) -> clause c2 ->
                  In g (map (fun c => mk_or c c2) cs) -> cnf g).
    { intros cs L1 L2 L. apply in_map_iff in L. destruct L as (x & <- & Hx). apply cn_clause, mk_or_clause; auto. }
    assert (D2 : forall cs, (forall c, In c cs -> clause c) -> clause c1 ->
                  In g (map (fun c => mk_or c1 c) cs) -> cnf g).
    { intros cs L1 L2 L. apply in_map_iff in L. destruct L as (x & <- & Hx). apply cn_clause, mk_or_clause; auto. }
    destruct c1; destruct c2; simpl in H1, H2; try (apply D; assumption);
      try (apply (D1 fs); assumption); try (apply (D2 fs); assumption); try (apply (D2 fs0); assumption).
    apply in_flat_map in Hg. destruct Hg as (a & Ha & Hg). apply in_map_iff in Hg. destruct Hg as (b & <- & Hb).
    apply cn_clause, mk_or_clause; auto.
  Qed.
  Lemma fold_or_step_cnf l : forall acc, cnf acc -> (forall g, In g l -> cnf g) -> cnf (fold_left or_step l acc).
  Proof.
    induction l as [|f l IH]; simpl; intros acc H1 H2; auto. apply IH; auto. apply or_step_cnf; auto.
  Qed.

  (** Quantifier depth does not grow under NNF, so [ncnf] never meets a quantifier with [n = 0]. *)
  Lemma qdepth_and fs g : In g fs -> (qdepth g <= qdepth (FAnd fs))%nat.
  Proof. induction fs as [|x l IH]; simpl; [tauto|]. intros [->|H]; [lia|]. specialize (IH H). simpl in IH. lia. Qed.
  Lemma qdepth_or fs g : In g fs -> (qdepth g <= qdepth (FOr fs))%nat.
  Proof. induction fs as [|x l IH]; simpl; [tauto|]. intros [->|H]; [lia|]. specialize (IH H). simpl in IH. lia. Qed.
  Lemma qdepth_and_le fs n : (forall g, In g fs -> (qdepth g <= n)%nat) -> (qdepth (FAnd fs) <= n)%nat.
  Proof. induction fs as [|x l IH]; simpl; intros H; [lia|]. assert ((qdepth x <= n)%nat) by auto.
    assert ((qdepth (FAnd l) <= n)%nat) by (apply IH; auto). simpl in *. lia. Qed.
  Lemma qdepth_or_le fs n : (forall g, In g fs -> (qdepth g <= n)%nat) -> (qdepth (FOr fs) <= n)%nat.
  Proof. induction fs as [|x l IH]; simpl; intros H; [lia|]. assert ((qdepth x <= n)%nat) by auto.
    assert ((qdepth (FOr l) <= n)%nat) by (apply IH; auto). simpl in *. lia. Qed.
  Lemma nnf_qdepth push n f : (qdepth f <= n)%nat -> forall pol, (qdepth (nnf fold push f pol) <= n)%nat.
  Proof.
    induction f as [| | v | op a b | fs IH | fs IH | g IH | vs g IH] using formula_ind'; intros U pol.
    - destruct pol; simpl; lia.
    - destruct pol; simpl; lia.
    - destruct pol; simpl; lia.
    - cbn [nnf]. destruct pol; auto. destruct push; auto.
      destruct op; unfold mk_rel; destruct (fold a b); try destruct (relop_on _ _); simpl; lia.
    - rewrite Forall_forall in IH. cbn [nnf].
      assert (K : forall g, In g (fset (map (fun g => nnf fold push g pol) fs)) -> (qdepth g <= n)%nat).
      { intros g Hg. apply fset_In, in_map_iff in Hg. destruct Hg as (x & <- & Hx). apply IH; auto.
        pose proof (qdepth_and _ _ Hx). lia. }
      destruct pol; [apply (mk_conj_pres (fun f => (qdepth f <= n)%nat))|apply (mk_disj_pres (fun f => (qdepth f <= n)%nat))];
        auto using qdepth_and_le, qdepth_or_le; try (simpl; lia);
        intros gs Hgs g Hg; [pose proof (qdepth_and _ _ Hg)|pose proof (qdepth_or _ _ Hg)]; lia.
    - rewrite Forall_forall in IH. cbn [nnf].
      assert (K : forall g, In g (fset (map (fun g => nnf fold push g pol) fs)) -> (qdepth g <= n)%nat).
      { intros g Hg. apply fset_In, in_map_iff in Hg. destruct Hg as (x & <- & Hx). apply IH; auto.
        pose proof (qdepth_or _ _ Hx). lia. }
      destruct pol; [apply (mk_disj_pres (fun f => (qdepth f <= n)%nat))|apply (mk_conj_pres (fun f => (qdepth f <= n)%nat))];
        auto using qdepth_and_le, qdepth_or_le; try (simpl; lia);
        intros gs Hgs g Hg; [pose proof (qdepth_or _ _ Hg)|pose proof (qdepth_and _ _ Hg)]; lia.
    - cbn [nnf]. apply IH. exact U.
    - destruct pol; simpl in *; lia.
  Qed.

  Lemma ncnf_cnf n : forall f, unfolded fold f -> is_nnf true f -> cnf (ncnf fold n f).
  Proof.
    induction n as [n IHn] using (well_founded_induction lt_wf).
    induction f as [| | v | op a b | fs IH | fs IH | g IH | vs g IH] using formula_ind'; intros U N.
    - destruct n; repeat constructor.
    - destruct n; repeat constructor.
    - destruct n; repeat constructor.
    - inversion U; subst. destruct n, op; simpl; rewrite ?mk_rel_none by auto; try (apply cn_clause, cl_lit, li_pos, at_rel).
      all: try (apply (cn_and [FRel RGeq a b; FRel RLeq a b]); simpl; intros g [<-|[<-|[]]]; repeat constructor).
      all: apply cn_clause, (cl_or [FRel RGt a b; FRel RLt a b]); simpl; intros g [<-|[<-|[]]]; repeat constructor.
    - inversion U; subst. rewrite Forall_forall in IH. pose proof (nnf_and_inv _ _ N) as N'.
      assert (E : ncnf fold n (FAnd fs) = mk_conj (fset (map (ncnf fold n) fs))) by (destruct n; reflexivity).
      rewrite E. apply mk_conj_cnf. intros g Hg. apply fset_In, in_map_iff in Hg. destruct Hg as (x & <- & Hx).
      apply IH; auto. apply H0; auto.
    - inversion U; subst. rewrite Forall_forall in IH. pose proof (nnf_or_inv _ _ N) as N'.
      assert (E : ncnf fold n (FOr fs) = fold_left or_step (fset (map (ncnf fold n) fs)) FFalse) by (destruct n; reflexivity).
      rewrite E. apply fold_or_step_cnf; [repeat constructor|]. intros g Hg. apply fset_In, in_map_iff in Hg.
      destruct Hg as (x & <- & Hx). apply IH; auto. apply H0; auto.
    - inversion N; subst; [inversion H|]. destruct n; simpl; apply cn_clause, cl_lit, li_neg; auto.
    - destruct n; simpl; apply cn_clause, cl_lit, li_pos; unfold mk_forall; constructor.
  Qed.

  Lemma dc_and_inv gs : deep_cnf (FAnd gs) -> forall g, In g gs -> deep_cnf g.
  Proof. intros H; inversion H; auto. Qed.
  Lemma dc_or_inv gs : deep_cnf (FOr gs) -> forall g, In g gs -> deep_cnf g.
  Proof. intros H; inversion H; auto. Qed.
  Lemma or_step_dc c1 c2 : deep_cnf c1 -> deep_cnf c2 -> deep_cnf (or_step c1 c2).
  Proof.
    intros H1 H2. unfold or_step. apply mk_conj_pres; try (now constructor); [apply dc_and_inv|].
    assert (O : forall a b, deep_cnf a -> deep_cnf b -> deep_cnf (mk_or a b)).
    { intros a b Ha Hb. apply mk_or_pres; auto; try (now constructor). apply dc_or_inv. }
    intros g Hg. rewrite fset_In in Hg.
    assert (D : In g [mk_or c1 c2] -> deep_cnf g) by (intros [<-|[]]; auto).
    destruct c1; destruct c2; try (apply D; assumption);
      try (apply in_map_iff in Hg; destruct Hg as (x & <- & Hx); apply O; auto;
        first [exact (dc_and_inv _ H1 x Hx)|exact (dc_and_inv _ H2 x Hx)]).
    apply in_flat_map in Hg. destruct Hg as (a & Ha & Hg). apply in_map_iff in Hg. destruct Hg as (b & <- & Hb).
    apply O; [exact (dc_and_inv _ H1 a Ha)|exact (dc_and_inv _ H2 b Hb)].
  Qed.

  Lemma ncnf_deep n : forall f, unfolded fold f -> (qdepth f <= n)%nat -> deep_cnf (ncnf fold n f).
  Proof.
    induction n as [n IHn] using (well_founded_induction lt_wf).
    induction f as [| | v | op a b | fs IH | fs IH | g IH | vs g IH] using formula_ind'; intros U Q.
    - destruct n; repeat constructor.
    - destruct n; repeat constructor.
    - destruct n; repeat constructor.
    - inversion U; subst. destruct n, op; simpl; rewrite ?mk_rel_none by auto;
        try (constructor; discriminate).
      all: first [apply (dc_and [FRel RGeq a b; FRel RLeq a b])|apply (dc_or [FRel RGt a b; FRel RLt a b])];
        simpl; intros g [<-|[<-|[]]]; constructor; discriminate.
    - inversion U; subst. rewrite Forall_forall in IH.
      assert (E : ncnf fold n (FAnd fs) = mk_conj (fset (map (ncnf fold n) fs))) by (destruct n; reflexivity).
      rewrite E. apply mk_conj_pres; try (now constructor); [apply dc_and_inv|].
      intros g Hg. apply fset_In, in_map_iff in Hg. destruct Hg as (x & <- & Hx).
      apply IH; auto. { apply H0; auto. } pose proof (qdepth_and _ _ Hx). lia.
    - inversion U; subst. rewrite Forall_forall in IH.
      assert (E : ncnf fold n (FOr fs) = fold_left or_step (fset (map (ncnf fold n) fs)) FFalse) by (destruct n; reflexivity).
      rewrite E. assert (K : forall g, In g (fset (map (ncnf fold n) fs)) -> deep_cnf g).
      { intros g Hg. apply fset_In, in_map_iff in Hg. destruct Hg as (x & <- & Hx).
        apply IH; auto. { apply H0; auto. } pose proof (qdepth_or _ _ Hx). lia. }
      revert K. generalize (fset (map (ncnf fold n) fs)). intros l K.
      assert (A : deep_cnf FFalse) by constructor. revert A. generalize FFalse.
      induction l as [|x l IHl]; simpl; intros acc A; auto. apply IHl.
      intros g Hg. apply K. now right. apply or_step_dc; auto. apply K; now left.
    - destruct n; constructor.
    - destruct n as [|m]; [simpl in Q; lia|]. inversion U; subst.
      assert (E : ncnf fold (S m) (FForall vs g) = mk_forall vs (ncnf fold m (nnf fold true g true))) by reflexivity.
      rewrite E. unfold mk_forall. apply dc_all.
      + apply ncnf_cnf; [now apply nnf_unfolded|now apply nnf_shape].
      + apply IHn; [lia|now apply nnf_unfolded|apply nnf_qdepth; simpl in Q; lia].
  Qed.

  Lemma naive_cnf_cnf f : unfolded fold f -> cnf (naive_cnf fold f).
  Proof. intros U. apply ncnf_cnf; [now apply nnf_unfolded|now apply nnf_shape]. Qed.
  Lemma naive_cnf_deep f : unfolded fold f -> deep_cnf (naive_cnf fold f).
  Proof. intros U. apply ncnf_deep; [now apply nnf_unfolded|apply nnf_qdepth; lia]. Qed.
End P.
