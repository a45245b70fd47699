(** Quantifier-free API-built formulas always convert, and the result consists of clauses. *)
From Coq Require Import ZArith Lia List Bool Arith.
From Verif Require Import Dbl Syntax FormulaCons FormulaConsProofs SpecForm Nnf NnfProofs
  PredAbs PredAbsProofs Tseitin.
Import ListNotations.

Definition noconst (g : formula) := g <> FTrue /\ g <> FFalse.

Lemma conj_loop_NoDup fs : forall ops r, NoDup ops -> conj_loop fs ops = Some r -> NoDup r.
Proof.
  induction fs as [|f fs IH]; intros ops r N E; cbn [conj_loop] in E; [now injection E as <-|].
  destruct (is_false f); [discriminate|]. destruct (is_true f); [eauto|].
  destruct f; try (eapply IH; [|exact E]; now apply finsert_NoDup). eapply IH; [|exact E]. now apply finserts_NoDup.
Qed.
Lemma disj_loop_NoDup fs : forall ops r, NoDup ops -> disj_loop fs ops = Some r -> NoDup r.
Proof.
  induction fs as [|f fs IH]; intros ops r N E; cbn [disj_loop] in E; [now injection E as <-|].
  destruct (is_true f); [discriminate|]. destruct (is_false f); [eauto|].
  destruct f; try (eapply IH; [|exact E]; now apply finsert_NoDup). eapply IH; [|exact E]. now apply finserts_NoDup.
Qed.

Lemma api_conj fs : (forall g, In g fs -> api_form g) -> api_form (mk_conj fs).
Proof.
  intros H. unfold mk_conj. destruct (conj_loop fs []) as [r|] eqn:E; [|constructor].
  assert (N : NoDup r) by (eapply conj_loop_NoDup; [constructor|eauto]).
  assert (K : forall g, In g r -> api_form g /\ g <> FTrue /\ g <> FFalse /\ (forall hs, g <> FAnd hs)).
  { intros g Hg. destruct (conj_loop_In _ _ _ E g Hg) as [C|[(C & D & D1 & D2)|(gs & C & D)]]; [destruct C| |].
    - repeat split; auto. intros hs ->; discriminate.
    - specialize (H _ C). inversion H; subst. now apply H3. }
  destruct r as [|x [|y l]]; [constructor|apply K; now left|constructor; auto; simpl; lia].
Qed.
Lemma api_disj fs : (forall g, In g fs -> api_form g) -> api_form (mk_disj fs).
Proof.
  intros H. unfold mk_disj. destruct (disj_loop fs []) as [r|] eqn:E; [|constructor].
  assert (N : NoDup r) by (eapply disj_loop_NoDup; [constructor|eauto]).
  assert (K : forall g, In g r -> api_form g /\ g <> FTrue /\ g <> FFalse /\ (forall hs, g <> FOr hs)).
  { intros g Hg. destruct (disj_loop_In _ _ _ E g Hg) as [C|[(C & D & D1 & D2)|(gs & C & D)]]; [destruct C| |].
    - repeat split; auto. intros hs ->; discriminate.
    - specialize (H _ C). inversion H; subst. now apply H3. }
  destruct r as [|x [|y l]]; [constructor|apply K; now left|constructor; auto; simpl; lia].
Qed.
Lemma finsert_len f s : length s <= length (finsert f s).
Proof. unfold finsert. destruct (fmem f s); auto. rewrite app_length. lia. Qed.
Lemma finserts_len fs : forall s, length s <= length (finserts fs s).
Proof. induction fs as [|f fs IH]; simpl; intros s; auto. etransitivity; [apply (finsert_len f s)|apply IH]. Qed.
Lemma merge_conj_len f s : length s <= length (merge_conj f s).
Proof. unfold merge_conj. destruct f; try apply finsert_len. apply finserts_len. Qed.
Lemma merge_disj_len f s : length s <= length (merge_disj f s).
Proof. unfold merge_disj. destruct f; try apply finsert_len. apply finserts_len. Qed.
Lemma merge_conj_NoDup f s : NoDup s -> NoDup (merge_conj f s).
Proof. unfold merge_conj. destruct f; intros; try now apply finsert_NoDup. now apply finserts_NoDup. Qed.
Lemma merge_disj_NoDup f s : NoDup s -> NoDup (merge_disj f s).
Proof. unfold merge_disj. destruct f; intros; try now apply finsert_NoDup. now apply finserts_NoDup. Qed.

Lemma api_and f1 f2 : api_form f1 -> api_form f2 -> api_form (mk_and f1 f2).
Proof.
  intros H1 H2. unfold mk_and.
  destruct (is_false f1) eqn:A1; auto. destruct (is_false f2) eqn:A2; [constructor|].
  destruct (is_true f1) eqn:A3; auto. destruct (is_true f2) eqn:A4; auto.
  destruct (formula_eqb f1 f2) eqn:A5; auto.
  assert (C1 : f1 <> FTrue /\ f1 <> FFalse) by (split; intros ->; discriminate).
  assert (C2 : f2 <> FTrue /\ f2 <> FFalse) by (split; intros ->; discriminate).
  assert (D : (forall hs, f1 <> FAnd hs) -> (forall hs, f2 <> FAnd hs) -> api_form (FAnd (fset [f1; f2]))).
  { intros D1 D2. assert (E : fset [f1; f2] = [f1; f2]).
    { unfold fset, finserts, finsert; simpl. unfold fmem; simpl.
      destruct (formula_eqb f2 f1) eqn:E'; auto. apply formula_eqb_eq in E'. subst.
      rewrite formula_eqb_refl in A5. discriminate. }
    rewrite E. constructor; [rewrite <- E; apply fset_NoDup|simpl; lia|].
    intros g [<-|[<-|[]]]; repeat split; auto; tauto. }
  assert (Mg : forall f gs, api_form f -> f <> FTrue /\ f <> FFalse -> api_form (FAnd gs) -> api_form (FAnd (merge_conj f gs))).
  { intros f gs Hf Cf Hg. inversion Hg; subst. constructor.
    - now apply merge_conj_NoDup.
    - pose proof (merge_conj_len f gs). lia.
    - intros g Hin. apply merge_conj_In in Hin. destruct Hin as [Hin|[(hs & -> & Hin)|[-> Hc]]]; auto.
      + inversion Hf; subst. auto.
      + repeat split; try tauto. intros hs ->; discriminate. }
  destruct f1; destruct f2; try (apply Mg; auto; fail); apply D; intros; discriminate.
Qed.
Lemma api_or f1 f2 : api_form f1 -> api_form f2 -> api_form (mk_or f1 f2).
Proof.
  intros H1 H2. unfold mk_or.
  destruct (is_true f1) eqn:A3; auto. destruct (is_true f2) eqn:A4; [constructor|].
  destruct (is_false f1) eqn:A1; auto. destruct (is_false f2) eqn:A2; auto.
  destruct (formula_eqb f1 f2) eqn:A5; auto.
  assert (C1 : f1 <> FTrue /\ f1 <> FFalse) by (split; intros ->; discriminate).
  assert (C2 : f2 <> FTrue /\ f2 <> FFalse) by (split; intros ->; discriminate).
  assert (D : (forall hs, f1 <> FOr hs) -> (forall hs, f2 <> FOr hs) -> api_form (FOr (fset [f1; f2]))).
  { intros D1 D2. assert (E : fset [f1; f2] = [f1; f2]).
    { unfold fset, finserts, finsert; simpl. unfold fmem; simpl.
      destruct (formula_eqb f2 f1) eqn:E'; auto. apply formula_eqb_eq in E'. subst.
      rewrite formula_eqb_refl in A5. discriminate. }
    rewrite E. constructor; [rewrite <- E; apply fset_NoDup|simpl; lia|].
    intros g [<-|[<-|[]]]; repeat split; auto; tauto. }
  assert (Mg : forall f gs, api_form f -> f <> FTrue /\ f <> FFalse -> api_form (FOr gs) -> api_form (FOr (merge_disj f gs))).
  { intros f gs Hf Cf Hg. inversion Hg; subst. constructor.
    - now apply merge_disj_NoDup.
    - pose proof (merge_disj_len f gs). lia.
    - intros g Hin. apply merge_disj_In in Hin. destruct Hin as [Hin|[(hs & -> & Hin)|[-> Hc]]]; auto.
      + inversion Hf; subst. auto.
      + repeat split; try tauto. intros hs ->; discriminate. }
  destruct f1; destruct f2; try (apply Mg; auto; fail); apply D; intros; discriminate.
Qed.
Lemma api_not f : api_form f -> api_form (mk_not f).
Proof. intros H; destruct f; simpl; try (constructor; auto; intros; discriminate). now inversion H. Qed.
Lemma api_rel fold o a b : api_form (mk_rel fold o a b).
Proof. unfold mk_rel. destruct (fold a b); [destruct (relop_on _ _)|]; constructor. Qed.

(** ** The conversion of such formulas *)
Section Shape.
  Variable fold : expr -> expr -> option dbl.

  (** Definitions recorded in the map: a connective over at least two distinct literals, or a
      negated variable. *)
  Definition good_def (d : formula) : Prop :=
    (exists fs, d = FAnd fs /\ forall g, In g fs -> literal g) \/
    (exists fs, d = FOr fs /\ forall g, In g fs -> literal g) \/
    (exists b, d = FNot (FVar b)).

  Definition good_state (s : ts_state) : Prop := forall b d, In (b, d) (ts_map s) -> good_def d.

  (** Atoms of a formula as operand results: visiting is injective on the operands of one node. *)
  Lemma literal_not_conn g : literal g -> g <> FTrue /\ g <> FFalse /\ (forall hs, g <> FAnd hs) /\ (forall hs, g <> FOr hs).
  Proof. intros H; inversion H; subst; [inversion H0|]; repeat split; intros; discriminate. Qed.

  Lemma conj_loop_lits l : (forall g, In g l -> literal g) -> forall ops,
    conj_loop l ops = Some (finserts l ops).
  Proof.
    induction l as [|x l IH]; intros H ops; simpl; auto.
    destruct (literal_not_conn x (H x (or_introl eq_refl))) as (N1 & N2 & N3 & _).
    destruct x; simpl; try congruence; try (apply IH; intros; apply H; now right). all: exfalso; eapply N3; eauto.
  Qed.
  Lemma disj_loop_lits l : (forall g, In g l -> literal g) -> forall ops,
    disj_loop l ops = Some (finserts l ops).
  Proof.
    induction l as [|x l IH]; intros H ops; simpl; auto.
    destruct (literal_not_conn x (H x (or_introl eq_refl))) as (N1 & N2 & _ & N3).
    destruct x; simpl; try congruence; try (apply IH; intros; apply H; now right). all: exfalso; eapply N3; eauto.
  Qed.
  Lemma finserts_app_nodup l : forall ops, NoDup (ops ++ l) -> finserts l ops = ops ++ l.
  Proof.
    induction l as [|x l IH]; intros ops N; simpl; [now rewrite app_nil_r|].
    assert (E : finsert x ops = ops ++ [x]).
    { unfold finsert. destruct (fmem x ops) eqn:F; auto. apply fmem_In in F.
      apply NoDup_remove_2 in N. exfalso. apply N. apply in_or_app; auto. }
    rewrite E, IH; rewrite <- app_assoc; auto.
  Qed.
  Lemma fset_nodup l : NoDup l -> fset l = l.
  Proof. intros N. unfold fset. now rewrite finserts_app_nodup. Qed.

  Lemma mk_conj_lits l : NoDup l -> 2 <= length l -> (forall g, In g l -> literal g) -> mk_conj (fset l) = FAnd l.
  Proof.
    intros N L H. rewrite fset_nodup by auto. unfold mk_conj. rewrite conj_loop_lits by auto.
    change (finserts l []) with (fset l). rewrite fset_nodup by auto. destruct l as [|x [|y l]]; simpl in L; try lia; auto.
  Qed.
  Lemma mk_disj_lits l : NoDup l -> 2 <= length l -> (forall g, In g l -> literal g) -> mk_disj (fset l) = FOr l.
  Proof.
    intros N L H. rewrite fset_nodup by auto. unfold mk_disj. rewrite disj_loop_lits by auto.
    change (finserts l []) with (fset l). rewrite fset_nodup by auto. destruct l as [|x [|y l]]; simpl in L; try lia; auto.
  Qed.

  (** Result of visiting an operand: itself when it is a literal, otherwise a variable numbered
      at or above the counter. *)
  Definition vres (f g : formula) (s s' : ts_state) : Prop :=
    literal g /\ ts_next s <= ts_next s' /\
    (g = f /\ s' = s \/ exists b, g = FVar b /\ ts_next s <= vid b < ts_next s').

  Definition idbound (n : nat) (f : formula) : Prop := forall v, In v (fvF f) -> vid v < n.

  Lemma smap_vres fs : (forall f, In f fs -> forall s g s', idbound (ts_next s) f -> good_state s -> ts_visit fold f s = (g, s') ->
       good_state s' /\ vres f g s s') -> NoDup fs ->
    forall s r s', (forall f, In f fs -> idbound (ts_next s) f) -> good_state s -> smap (ts_visit fold) fs s = (r, s') ->
    good_state s' /\ ts_next s <= ts_next s' /\ length r = length fs /\ NoDup r /\ (forall g, In g r -> literal g) /\
    (forall g, In g r -> In g fs \/ exists b, g = FVar b /\ ts_next s <= vid b).
  Proof.
    induction fs as [|f fs IH]; intros H N s r s' B G E; simpl in E.
    - injection E as <- <-. split; [exact G|]. split; [lia|]. split; [reflexivity|]. split; [constructor|]. split; intros ? [].
    - destruct (ts_visit fold f s) as [f1 s1] eqn:E1. destruct (smap (ts_visit fold) fs s1) as [r2 s2] eqn:E2.
      injection E as <- <-.
      destruct (H f (or_introl eq_refl) s f1 s1 (B f (or_introl eq_refl)) G E1) as (G1 & L1 & M1 & D1).
      inversion N; subst.
      assert (B1 : forall f, In f fs -> idbound (ts_next s1) f).
      { intros x Hx v Hv. specialize (B x (or_intror Hx) v Hv). lia. }
      destruct (IH (fun x Hx => H x (or_intror Hx)) H3 s1 r2 s2 B1 G1 E2) as (G2 & M2 & L2 & N2 & K2 & J2).
      split; auto. split; [lia|]. split; [simpl; lia|]. split; [|split].
      + constructor; auto. intros C. destruct (J2 _ C) as [J|(b & J & Jb)].
        * destruct D1 as [(D1 & _)|(b & -> & Db)]; [subst; contradiction|].
          specialize (B (FVar b) (or_intror J) b (or_introl eq_refl)). lia.
        * destruct D1 as [(-> & ->)|(b' & D1 & Db)].
          -- subst f. specialize (B (FVar b) (or_introl eq_refl) b (or_introl eq_refl)). lia.
          -- rewrite J in D1. injection D1 as ->. lia.
      + intros g [<-|Hg]; auto.
      + intros g [<-|Hg].
        * destruct D1 as [(-> & _)|(b & -> & Db)]; [left; now left|right; exists b; split; auto; lia].
        * destruct (J2 g Hg) as [J|(b & -> & Jb)]; [left; now right|right; exists b; split; auto; lia].
  Qed.

  Lemma ts_visit_shape f : api_form f -> f <> FTrue -> f <> FFalse -> forall s g s', idbound (ts_next s) f -> good_state s ->
    ts_visit fold f s = (g, s') -> good_state s' /\ vres f g s s'.
  Proof.
    induction f as [| | v | op a b | fs IH | fs IH | h IH | vs h IH] using formula_ind'; intros A NT NF s g s' B G E;
      cbn [ts_visit] in E; try congruence.
    - injection E as <- <-. split; auto. split; [repeat constructor|]. split; auto.
    - injection E as <- <-. split; auto. split; [repeat constructor|]. split; auto.
    - inversion A; subst. rewrite Forall_forall in IH.
      destruct (smap (ts_visit fold) fs s) as [ops s1] eqn:E1. simpl in E. injection E as <- <-.
      destruct (smap_vres fs) with (s := s) (r := ops) (s' := s1) as (G1 & M1 & L1 & N1 & K1 & J1); auto.
      { intros f Hf s0 g0 s0' B0 G0 E0. destruct (H2 f Hf) as (F1 & F2 & F3 & F4). eapply IH; eauto. }
      { intros f Hf v Hv. apply B. simpl. apply in_flat_map; eauto. }
      rewrite mk_conj_lits by (auto; lia). split.
      + intros b d [Hb|Hb]; [|eapply G1; eauto]. injection Hb as <- <-. left; eauto.
      + split; [repeat constructor|]. simpl. split; [lia|]. right. eexists; split; [reflexivity|]. simpl. lia.
    - inversion A; subst. rewrite Forall_forall in IH.
      destruct (smap (ts_visit fold) fs s) as [ops s1] eqn:E1. simpl in E. injection E as <- <-.
      destruct (smap_vres fs) with (s := s) (r := ops) (s' := s1) as (G1 & M1 & L1 & N1 & K1 & J1); auto.
      { intros f Hf s0 g0 s0' B0 G0 E0. destruct (H2 f Hf) as (F1 & F2 & F3 & F4). eapply IH; eauto. }
      { intros f Hf v Hv. apply B. simpl. apply in_flat_map; eauto. }
      rewrite mk_disj_lits by (auto; lia). split.
      + intros b d [Hb|Hb]; [|eapply G1; eauto]. injection Hb as <- <-. right; left; eauto.
      + split; [repeat constructor|]. simpl. split; [lia|]. right. eexists; split; [reflexivity|]. simpl. lia.
    - inversion A; subst. destruct (is_atomic h) eqn:Ea.
      + injection E as <- <-. split; auto. split; [|split; auto]. apply li_neg.
        destruct h; simpl in Ea; try congruence; try constructor; exfalso; eauto. 
      + simpl in E. destruct (ts_visit fold h _) as [g1 s2] eqn:E2. injection E as <- <-.
        destruct (IH H0 H1 H2 {| ts_next := S (ts_next s); ts_map := ts_map s |} g1 s2 (fun v Hv => Nat.lt_lt_succ_r _ _ (B v Hv)) G E2) as (G2 & L2 & M2 & D2).
        simpl in M2, D2.
        assert (Ev : exists b, g1 = FVar b).
        { destruct D2 as [(-> & _)|(b & -> & _)]; eauto. exfalso.
          destruct (literal_not_conn h L2) as (_ & _ & X1 & X2).
          destruct h; simpl in Ea; try discriminate; [eapply X1|eapply X2|eapply H3]; eauto. }
        destruct Ev as (b & ->). cbn [mk_not]. split.
        * intros b' d [Hb|Hb]; [|eapply G2; eauto]. injection Hb as <- <-. right; right; eauto.
        * split; [repeat constructor|]. simpl. split; [lia|]. right. eexists; split; [reflexivity|]. simpl. lia.
    - inversion A.
  Qed.

  Lemma clause_add f cs : clause f -> (forall c, In c cs -> clause c) -> forall c, In c (add_clause f cs) -> clause c.
  Proof.
    intros F H c Hc. unfold add_clause in Hc. destruct (is_true f); auto. apply in_app_or in Hc.
    destruct Hc as [|[<-|[]]]; auto.
  Qed.
  Lemma clause_fold_add (h : formula -> formula) l : (forall x, In x l -> clause (h x)) -> forall cs,
    (forall c, In c cs -> clause c) -> forall c, In c (fold_left (fun cs x => add_clause (h x) cs) l cs) -> clause c.
  Proof.
    induction l as [|x l IH]; simpl; intros H cs K c Hc; [auto|].
    revert Hc. apply IH; auto. intros c' Hc'. eapply clause_add; [|exact K|exact Hc']. auto.
  Qed.
  Lemma mk_not_lit g : literal g -> literal (mk_not g).
  Proof. intros H; inversion H; subst; [inversion H0; subst; simpl; apply li_neg; constructor|simpl; now apply li_pos]. Qed.
  Lemma mk_disj_clause l : (forall g, In g l -> clause g) -> clause (mk_disj l).
  Proof.
    intros H. unfold mk_disj. destruct (disj_loop l []) as [r|] eqn:E; [|constructor].
    assert (K : forall g, In g r -> literal g).
    { intros g Hg. destruct (disj_loop_In _ _ _ E g Hg) as [C|[(C & D & D1 & D2)|(gs & C & D)]]; [destruct C| |].
      - specialize (H _ C). inversion H; subst; auto; try congruence. discriminate.
      - specialize (H _ C). inversion H; subst; auto. inversion H0; subst. inversion H1. }
    destruct r as [|x [|y r]]; [constructor|apply cl_lit, K; now left|now apply cl_or].
  Qed.

  Lemma cnfize_shape b d : good_def d -> exists cs, cnfize b d = Some cs /\ forall c, In c cs -> clause c.
  Proof.
    assert (Lb : literal (FVar b)) by repeat constructor.
    assert (Lnb : literal (FNot (FVar b))) by (apply li_neg; constructor).
    intros [(fs & -> & H)|[(fs & -> & H)|(c & ->)]]; unfold cnfize; eexists; (split; [reflexivity|]).
    - apply clause_add.
      + apply mk_or_clause; [|now apply cl_lit]. apply mk_disj_clause. intros g Hg. rewrite fset_In in Hg.
        apply in_map_iff in Hg. destruct Hg as (x & <- & Hx). apply cl_lit, mk_not_lit; auto.
      + apply (clause_fold_add (fun bi => mk_or (mk_not (FVar b)) bi)); [|intros ? []].
        intros x Hx. apply mk_or_clause; apply cl_lit; auto.
    - apply (clause_fold_add (fun nbi => mk_or nbi (FVar b))).
      + intros x Hx. rewrite fset_In in Hx. apply in_map_iff in Hx. destruct Hx as (y & <- & Hy).
        apply mk_or_clause; apply cl_lit; auto. now apply mk_not_lit, H.
      + apply clause_add; [|intros ? []]. apply mk_or_clause; [now apply cl_lit|now apply cl_or].
    - apply clause_add.
      + unfold mk_imply. apply mk_or_clause; apply cl_lit; auto. apply mk_not_lit, li_neg; constructor.
      + apply clause_add; [|intros ? []]. unfold mk_imply. apply mk_or_clause; apply cl_lit; auto. apply li_neg; constructor.
  Qed.

  Lemma cnfize_map_shape h m : (forall b d, In (b, d) m -> good_def d) ->
    exists cs, cnfize_map h m = Some cs /\ forall c, In c cs -> clause c.
  Proof.
    induction m as [|[b d] m IH]; intros H; simpl.
    - exists []. split; auto. intros ? [].
    - destruct IH as (c2 & E2 & K2); [intros; eapply H; right; eauto|].
      assert (X : exists c1, (if var_eqb h b then Some (get_clauses d) else cnfize b d) = Some c1 /\ forall c, In c c1 -> clause c).
      { destruct (var_eqb h b).
        - eexists; split; [reflexivity|]. destruct (H b d (or_introl eq_refl)) as [(fs & -> & K)|[(fs & -> & K)|(x & ->)]]; simpl.
          + intros c Hc. now apply cl_lit, K.
          + intros c [<-|[]]. now apply cl_or.
          + intros c [<-|[]]. apply cl_lit, li_neg; constructor.
        - apply cnfize_shape. eapply H; left; eauto. }
      destruct X as (c1 & E1 & K1). rewrite E1, E2. eexists; split; [reflexivity|].
      intros c Hc. apply in_app_or in Hc. destruct Hc; auto.
  Qed.

  Theorem ts_convert_shape f next : api_form f -> (forall v, In v (fvF f) -> vid v < next) ->
    exists cs s, ts_convert fold f next = (Some cs, s) /\ forall c, In c cs -> clause c.
  Proof.
    intros A B. unfold ts_convert. destruct (ts_visit fold f {| ts_next := next; ts_map := [] |}) as [g s] eqn:E.
    destruct (formula_eq_dec f FTrue) as [->|NT].
    { simpl in E. injection E as <- <-. simpl. do 2 eexists. split; [reflexivity|]. intros c [<-|[]]; constructor. }
    destruct (formula_eq_dec f FFalse) as [->|NF].
    { simpl in E. injection E as <- <-. simpl. do 2 eexists. split; [reflexivity|]. intros c [<-|[]]; constructor. }
    destruct (ts_visit_shape f A NT NF {| ts_next := next; ts_map := [] |} g s B (fun b d H => match H with end) E) as (G & L & Mn & D).
    destruct D as [(-> & ->)|(b & -> & D)].
    - simpl. do 2 eexists. split; [reflexivity|]. intros c [<-|[]]. now apply cl_lit.
    - destruct (ts_map s) as [|p m] eqn:Em.
      + do 2 eexists. split; [reflexivity|]. intros c [<-|[]]. now apply cl_lit.
      + destruct (cnfize_map_shape b (p :: m)) as (cs & Ec & K).
        { intros b' d Hb. apply (G b' d). now rewrite Em. }
        exists cs, s. split; [now rewrite Ec|exact K].
  Qed.
End Shape.
