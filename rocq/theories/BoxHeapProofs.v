From Coq Require Import ZArith List Bool Lia.
From Verif Require Import Dbl Syntax Interval IntervalProofs BoxHeap.
Import ListNotations.

Definition tab_ok (t : tables) (vs : list var) : Prop :=
  t_vars t = vs /\ (forall v, assocv v (t_v2i t) = index_of v vs) /\ (forall i, associ i (t_i2v t) = nth_error vs i).
Definition orel (h : heap) (o : option obj) (b : option box) : Prop :=
  match o, b with
  | None, None => True
  | Some (p, vals), Some b => p < length (h_tabs h) /\ tab_ok (tab h p) (bvars b) /\ vals = bvals b /\ NoDup (bvars b)
  | _, _ => False
  end.
Definition hrel (h : heap) (s : vstore) : Prop := Forall2 (orel h) (h_objs h) s.

Lemma Forall2_nth {A B} (R : A -> B -> Prop) l m k a b : Forall2 R l m -> R a b -> R (nth k l a) (nth k m b).
Proof. intros H Hd; revert k; induction H; intros [|k]; simpl; auto. Qed.
Lemma Forall2_len {A B} (R : A -> B -> Prop) l m : Forall2 R l m -> length l = length m.
Proof. induction 1; simpl; auto. Qed.
Lemma Forall2_upd {A B} (R : A -> B -> Prop) l m k a b : Forall2 R l m -> R a b -> Forall2 R (upd_nth k a l) (upd_nth k b m).
Proof. intros H Hd; revert k; induction H; intros [|k]; simpl; constructor; auto. Qed.
Lemma Forall2_impl' {A B} (R S : A -> B -> Prop) l m : (forall a b, In a l -> R a b -> S a b) -> Forall2 R l m -> Forall2 S l m.
Proof. intros H F; revert H; induction F; intros H0; constructor; auto. apply H0; [now left|auto]. apply IHF; intros; apply H0; auto. now right. Qed.

Lemma nth_upd_nth {A} n m (x d : A) l : nth m (upd_nth n x l) d = if Nat.eqb n m && Nat.ltb n (length l) then x else nth m l d.
Proof.
  destruct (Nat.eqb_spec n m) as [<-|N]; simpl.
  - destruct (Nat.ltb_spec n (length l)).
    + now apply nth_upd_nth_eq.
    + rewrite upd_nth_oob by lia. reflexivity.
  - now apply nth_upd_nth_ne.
Qed.

Lemma assoc_emplacev v n l vs : (forall w, assocv w l = index_of w vs) -> ~ In v vs -> n = length vs ->
  forall w, assocv w (emplacev v n l) = index_of w (vs ++ [v]).
Proof.
  intros H N -> w. unfold emplacev. rewrite H. rewrite (proj2 (index_of_None v vs) N). simpl.
  destruct (var_eqb w v) eqn:E.
  - apply var_eqb_eq in E. subst. clear H. induction vs as [|x vs IH]; simpl.
    + now rewrite var_eqb_refl.
    + destruct (var_eqb v x) eqn:Ex; [apply var_eqb_eq in Ex; subst; exfalso; apply N; now left|].
      rewrite <- IH; [reflexivity|]. intros C; apply N; now right.
  - rewrite H. clear H N. induction vs as [|x vs IH]; simpl.
    + now rewrite E.
    + destruct (var_eqb w x); auto. now rewrite IH.
Qed.
Lemma assoc_emplacei v n l vs : (forall i, associ i l = nth_error vs i) -> n = length vs ->
  forall i, associ i (emplacei n v l) = nth_error (vs ++ [v]) i.
Proof.
  intros H -> i. unfold emplacei. rewrite H.
  assert (nth_error vs (length vs) = None) as -> by (apply nth_error_None; lia). simpl.
  destruct (Nat.eqb_spec i (length vs)) as [->|N].
  - rewrite nth_error_app2 by lia. now rewrite Nat.sub_diag.
  - rewrite H. destruct (Nat.lt_ge_cases i (length vs)).
    + now rewrite nth_error_app1.
    + rewrite (proj2 (nth_error_None vs i)) by lia. symmetry. apply nth_error_None. rewrite app_length; simpl; lia.
Qed.

Lemma orel_tabs h h' o b : length (h_tabs h) <= length (h_tabs h') ->
  (forall p, match o with Some (q, _) => p = q | None => False end -> p < length (h_tabs h) -> tab h' p = tab h p) ->
  orel h o b -> orel h' o b.
Proof.
  intros L T. destruct o as [(p & vals)|], b as [b|]; simpl; auto.
  intros (A & B & C). rewrite (T p eq_refl A). split; [lia|]. tauto.
Qed.

Lemma refs_unique h p k q : refs h p = 1 -> nth_error (h_objs h) k = Some (Some (p, q)) ->
  forall j vals', nth_error (h_objs h) j = Some (Some (p, vals')) -> j = k.
Proof.
  unfold refs. generalize (h_objs h) as l. intros l. revert k. induction l as [|o l IH]; intros k R K j vals' J.
  - destruct k; discriminate.
  - destruct o as [(r & x)|].
    + simpl in R. destruct (Nat.eqb_spec p r) as [<-|N].
      * simpl in R. assert (Z : length (filter (fun o => match o with Some (q0, _) => Nat.eqb p q0 | None => false end) l) = 0) by lia.
        assert (Nn : forall i y, nth_error l i = Some (Some (p, y)) -> False).
        { intros i y Hi. apply nth_error_In in Hi.
          assert (In (Some (p, y)) (filter (fun o => match o with Some (q0, _) => Nat.eqb p q0 | None => false end) l)).
          { apply filter_In. split; auto. apply Nat.eqb_refl. }
          apply length_zero_iff_nil in Z. rewrite Z in H. exact H. }
        destruct k as [|k], j as [|j]; auto; simpl in *; exfalso; eauto.
      * destruct k as [|k], j as [|j]; simpl in *; try congruence. f_equal. eapply IH; eauto.
    + destruct k as [|k], j as [|j]; simpl in *; try congruence. f_equal. eapply IH; eauto.
Qed.

Lemma hrel_objn h s k : hrel h s -> orel h (objn h k) (vget s k).
Proof. intros H. apply (Forall2_nth _ _ _ k None None H). exact I. Qed.

Lemma objn_nth h k o : objn h k = Some o -> nth_error (h_objs h) k = Some (Some o).
Proof.
  unfold objn. revert k. induction (h_objs h) as [|x l IH]; intros [|k]; simpl; try discriminate; auto. intros ->; auto.
Qed.

Lemma hrel_setvals h s k g g' : hrel h s ->
  (forall b, vget s k = Some b -> bvars (g' b) = bvars b /\ bvals (g' b) = g (bvals b)) ->
  hrel (h_setvals h k g) (vmod s k g').
Proof.
  intros H G. pose proof (hrel_objn h s k H) as K. unfold h_setvals, vmod.
  destruct (objn h k) as [(p & vals)|] eqn:E, (vget s k) as [b|] eqn:Eb; simpl in K; try contradiction; auto.
  destruct K as (K1 & K2 & K3 & K4). destruct (G b eq_refl) as [G1 G2].
  apply Forall2_upd; auto. simpl. rewrite G1. split; [exact K1|]. split; [exact K2|]. split; [|exact K4]. congruence.
Qed.

Lemma hrel_index h s k v h' i : hrel h s -> (forall b, vget s k = Some b -> In v (bvars b)) -> h_index h k v = (h', i) ->
  h' = h /\ (forall b, vget s k = Some b -> i = b_idx0 b v).
Proof.
  intros H P E. pose proof (hrel_objn h s k H) as K. unfold h_index in E.
  destruct (objn h k) as [(p & vals)|] eqn:Eo, (vget s k) as [b|] eqn:Eb; simpl in K; try contradiction.
  - destruct K as (K1 & (K2 & K3 & K4) & K5). rewrite K3 in E. unfold b_idx0, b_index.
    destruct (index_of_In v (bvars b) (P b eq_refl)) as (j & J). rewrite J in E. injection E as <- <-.
    split; auto. intros b' Hb'. injection Hb' as <-. now rewrite J.
  - injection E as <- <-. split; auto. intros; discriminate.
Qed.

Lemma hrel_add h s k v : hrel h s -> (forall b, vget s k = Some b -> ~ In v (bvars b)) ->
  hrel (h_add h k v) (vmod s k (fun b => b_add b v)).
Proof.
  intros H P. pose proof (hrel_objn h s k H) as K. unfold h_add, vmod.
  destruct (objn h k) as [(p & vals)|] eqn:E, (vget s k) as [b|] eqn:Eb; simpl in K; try contradiction; auto.
  destruct K as (K1 & (K2 & K3 & K4) & K5 & K6). specialize (P b eq_refl).
  set (t := tab h p) in *.
  set (t' := mkT (t_vars t ++ [v]) (emplacev v (length (t_vars t)) (t_v2i t)) (emplacei (length (t_vars t)) v (t_i2v t))).
  assert (T' : tab_ok t' (bvars b ++ [v])).
  { split; [|split]; simpl.
    - now rewrite K2.
    - apply assoc_emplacev; auto. now rewrite K2.
    - apply assoc_emplacei; auto. now rewrite K2. }
  assert (ND : NoDup (bvars b ++ [v])).
  { clear - K6 P. induction (bvars b) as [|x l IH]; simpl.
    - constructor; [tauto|constructor].
    - inversion K6; subst. constructor.
      + rewrite in_app_iff. intros [C|[C|[]]]; auto. subst. apply P. now left.
      + apply IH; auto. intros C; apply P. now right. }
  destruct (unique h p) eqn:U.
  - assert (HU : forall q x, In (Some (q, x)) (h_objs h) -> q = p -> nth_error (h_objs h) k = Some (Some (q, x))).
    { intros q x Hin ->. apply In_nth_error in Hin. destruct Hin as (j & J).
      apply Nat.eqb_eq in U. pose proof (refs_unique h p k vals U (objn_nth _ _ _ E) j x J) as ->. exact J. }
    unfold hrel. simpl.
    (* first update the table; all objects but k are unaffected *)
    assert (F : forall j, j <> k -> orel (mkH (upd_nth p t' (h_tabs h)) []) (nth j (h_objs h) None) (nth j s None)).
    { intros j Nj. pose proof (hrel_objn h s j H) as O. unfold objn, vget in O.
      eapply orel_tabs; [| |exact O]; simpl; [now rewrite upd_nth_length|].
      intros q Hq Lq. destruct (nth j (h_objs h) None) as [(q' & x)|] eqn:Ej; [|contradiction]. subst q'.
      unfold tab; simpl. rewrite nth_upd_nth.
      destruct (Nat.eqb_spec p q) as [<-|]; auto. exfalso. apply Nj.
      eapply (refs_unique h p k vals); [now apply Nat.eqb_eq|now apply objn_nth|]. apply (objn_nth h j). exact Ej. }
    clear HU. unfold hrel in H. clear - H F K1 K2 K5 T' ND E Eb.
    assert (Fk : orel (mkH (upd_nth p t' (h_tabs h)) [])
               (Some (p, match default_dom (vty v) with
                   | Some d => upd_nth (length (t_vars t)) d (iv_resize (S (length (t_vars t))) vals)
                   | None => iv_resize (S (length (t_vars t))) vals end)) (Some (b_add b v))).
    { simpl. rewrite upd_nth_length. split; [exact K1|]. split.
      - unfold tab; simpl. rewrite nth_upd_nth_eq by auto. exact T'.
      - split; auto. rewrite K2, K5. unfold b_size. reflexivity. }
    apply (Forall2_impl' (orel (mkH (upd_nth p t' (h_tabs h)) []))).
    { intros o b0 _ O. exact O. }
    assert (Ln : length (h_objs h) = length s) by (eapply Forall2_len; eauto).
    assert (Lk : k < length (h_objs h)).
    { destruct (Nat.lt_ge_cases k (length (h_objs h))); auto. unfold objn in E. rewrite nth_overflow in E by lia. discriminate. }
    remember (mkH (upd_nth p t' (h_tabs h)) []) as h'.
    match goal with |- Forall2 _ (upd_nth k ?a _) (upd_nth k ?c _) => set (A := a) in *; set (C := c) in * end.
    assert (G : forall j, orel h' (nth j (upd_nth k A (h_objs h)) None) (nth j (upd_nth k C s) None)).
    { intros j. rewrite !nth_upd_nth. destruct (Nat.eqb_spec k j) as [<-|N]; simpl.
      - repeat match goal with |- context [Nat.ltb ?a ?b] => destruct (Nat.ltb_spec a b); [|unfold obj in *; lia] end. exact Fk.
      - apply F; auto. }
    assert (Ln' : length (upd_nth k A (h_objs h)) = length (upd_nth k C s)) by (rewrite !upd_nth_length; auto).
    revert G Ln'. generalize (upd_nth k A (h_objs h)) (upd_nth k C s). clear.
    induction l as [|x l IH]; intros [|y m] G L; simpl in *; try discriminate; constructor.
    + apply (G 0).
    + apply IH; [|lia]. intros j. apply (G (S j)).
  - assert (Ltab : p < length (h_tabs h)) by auto.
    unfold hrel. apply Forall2_upd.
    + eapply Forall2_impl'; [|exact H]. intros o b0 _ O. eapply orel_tabs; [| |exact O].
      * simpl. rewrite upd_nth_length, app_length. lia.
      * intros q _ Lq. unfold tab; simpl. rewrite nth_upd_nth_ne by lia. now rewrite app_nth1.
    + simpl. rewrite upd_nth_length, app_length. simpl. split; [lia|]. split.
      * unfold tab; simpl. rewrite nth_upd_nth_eq by (rewrite app_length; simpl; lia). exact T'.
      * split; auto. rewrite K2, K5. reflexivity.
Qed.

Lemma b_set_self b i x : bvars (b_set b i x) = bvars b /\ bvals (b_set b i x) = upd_nth i x (bvals b).
Proof. split; reflexivity. Qed.

Lemma vmod_comp s k f g : vmod (vmod s k f) k g = vmod s k (fun b => g (f b)).
Proof.
  unfold vmod. destruct (vget s k) as [b|] eqn:E; [|now rewrite E].
  assert (L : k < length s). { unfold vget in E. destruct (Nat.lt_ge_cases k (length s)); auto. rewrite nth_overflow in E by lia. discriminate. }
  unfold vget at 1. rewrite nth_upd_nth_eq by auto. now rewrite upd_nth_twice.
Qed.
Lemma vget_vmod s k f : vget (vmod s k f) k = option_map f (vget s k).
Proof.
  unfold vmod. destruct (vget s k) as [b|] eqn:E; [|now rewrite E].
  assert (L : k < length s). { unfold vget in E. destruct (Nat.lt_ge_cases k (length s)); auto. rewrite nth_overflow in E by lia. discriminate. }
  unfold vget at 1. now rewrite nth_upd_nth_eq by auto.
Qed.

Lemma hrel_step h s op : hrel h s -> op_pre s op -> hrel (h_step h op) (v_step s op).
Proof.
  intros H P. destruct op; simpl in *.
  - unfold hrel; simpl. apply Forall2_app.
    + eapply Forall2_impl'; [|exact H]. intros o b _ O. eapply orel_tabs; [| |exact O].
      * simpl. rewrite app_length; lia.
      * intros q _ Lq. unfold tab; simpl. now rewrite app_nth1.
    + constructor; [|constructor]. simpl. rewrite app_length; simpl. split; [lia|]. split; [|split; [reflexivity|constructor]].
      unfold tab; simpl. rewrite app_nth2, Nat.sub_diag by lia. simpl. split; [reflexivity|]. split; auto.
      intros i; destruct i; reflexivity.
  - unfold hrel; simpl. apply Forall2_app; [exact H|]. constructor; [|constructor]. apply (hrel_objn h s src H).
  - pose proof (hrel_objn h s dst H) as K1. pose proof (hrel_objn h s src H) as K2.
    destruct (objn h dst) as [o1|], (vget s dst) as [b1|]; try (now destruct o1); try contradiction; auto.
    destruct (objn h src) as [o2|], (vget s src) as [b2|]; try (now destruct o2); try contradiction; auto.
    apply Forall2_upd; auto.
  - apply Forall2_upd; [exact H|exact I].
  - now apply hrel_add.
  - pose proof (hrel_add h s k v H P) as H1.
    destruct (h_index (h_add h k v) k v) as [h2 i] eqn:E.
    assert (Q : forall b, vget (vmod s k (fun b => b_add b v)) k = Some b -> In v (bvars b)).
    { intros b. rewrite vget_vmod. destruct (vget s k); simpl; [|discriminate]. intros X; injection X as <-.
      unfold b_add; simpl. rewrite in_app_iff; simpl; auto. }
    destruct (hrel_index _ _ _ _ _ _ H1 Q E) as [-> Hi].
    assert (EQ : vmod s k (fun b => b_add_dom b v l u) = vmod (vmod s k (fun b => b_add b v)) k (fun b => b_setv b v (mk_ival l u))).
    { rewrite vmod_comp. reflexivity. }
    rewrite EQ. apply hrel_setvals; [assumption|]. intros b Hb. rewrite (Hi b Hb). unfold b_setv. apply b_set_self.
  - apply hrel_setvals; [exact H|]. intros; apply b_set_self.
  - destruct (h_index h k v) as [h2 i] eqn:E. destruct (hrel_index _ _ _ _ _ _ H P E) as [-> Hi].
    apply hrel_setvals; [assumption|]. intros b Hb. rewrite (Hi b Hb). apply b_set_self.
  - destruct (h_index h k v) as [h2 i] eqn:E. destruct (hrel_index _ _ _ _ _ _ H P E) as [-> Hi]. exact H.
  - apply hrel_setvals; auto.
Qed.

Lemma hrel_run ops : forall h s, hrel h s -> ops_pre s ops -> hrel (fold_left h_step ops h) (fold_left v_step ops s).
Proof.
  induction ops as [|op ops IH]; intros h s H P; simpl in *; auto. destruct P as [P1 P2]. apply IH; auto. now apply hrel_step.
Qed.

Lemma box_heap_refines ops k : ops_pre [] ops ->
  obs_vars (h_run ops) k = option_map bvars (vget (v_run ops) k) /\
  obs_vals (h_run ops) k = option_map bvals (vget (v_run ops) k) /\
  (forall v, obs_index (h_run ops) k v = option_map (fun b => b_index b v) (vget (v_run ops) k)) /\
  (forall v, obs_has (h_run ops) k v = option_map (fun b => b_has b v) (vget (v_run ops) k)) /\
  (forall i, obs_variable (h_run ops) k i = option_map (fun b => nth_error (bvars b) i) (vget (v_run ops) k)).
Proof.
  intros P. assert (H : hrel (h_run ops) (v_run ops)) by (apply hrel_run; [constructor|exact P]).
  pose proof (hrel_objn _ _ k H) as K. unfold obs_vars, obs_vals, obs_index, obs_has, obs_variable.
  destruct (objn (h_run ops) k) as [(p & vals)|], (vget (v_run ops) k) as [b|]; simpl in *; try contradiction.
  - destruct K as (K1 & (K2 & K3 & K4) & K5 & K6).
    split; [now rewrite K2|]. split; [now rewrite K5|]. split; [intros v; now rewrite K3|]. split; [|intros i; now rewrite K4].
    intros v. rewrite K3. unfold b_has. destruct (index_of v (bvars b)) as [i|] eqn:E.
    + apply index_of_nth, nth_error_In in E. f_equal. symmetry. now apply mem_var_In.
    + apply index_of_None in E. f_equal. symmetry. destruct (mem_var v (bvars b)) eqn:M; auto. apply mem_var_In in M. contradiction.
  - auto 10.
Qed.

(** Value semantics makes independence obvious: an operation on one object leaves the others. *)
Definition touches (op : bop) : option nat :=
  match op with
  | ONew | OCopy _ => None
  | OAssign k _ | ODestroy k | OAdd k _ | OAddDom k _ _ _ | OSet k _ _ | OSetVar k _ _ | OGetVar k _ | OSetEmpty k => Some k
  end.
Lemma v_step_other s op k : touches op <> Some k -> k < length s -> vget (v_step s op) k = vget s k.
Proof.
  intros T L. unfold vget.
  assert (VM : forall j g, j <> k -> nth k (vmod s j g) None = nth k s None).
  { intros j g N. unfold vmod. destruct (vget s j); auto. now rewrite nth_upd_nth_ne by auto. }
  destruct op; simpl in *; try (apply VM; congruence); try (now rewrite app_nth1); auto.
  - destruct (vget s dst), (vget s src); auto. rewrite nth_upd_nth_ne by congruence. reflexivity.
  - rewrite nth_upd_nth_ne by congruence. reflexivity.
Qed.
Lemma ops_pre_app ops1 : forall s ops2, ops_pre s (ops1 ++ ops2) -> ops_pre s ops1 /\ ops_pre (fold_left v_step ops1 s) ops2.
Proof. induction ops1; simpl; intros s ops2 H; [auto|]. destruct H as [H1 H2]. apply IHops1 in H2. tauto. Qed.
Lemma v_run_other ops : forall s k, (forall op, In op ops -> touches op <> Some k) -> k < length s ->
  vget (fold_left v_step ops s) k = vget s k.
Proof.
  induction ops as [|op ops IH]; intros s k T L; simpl; auto. rewrite IH.
  - apply v_step_other; auto. apply T. now left.
  - intros op' H. apply T. now right.
  - eapply Nat.lt_le_trans; [exact L|]. destruct op; simpl; unfold vmod; rewrite ?app_length; simpl; try lia;
      repeat match goal with |- context [match ?x with _ => _ end] => destruct x end; rewrite ?upd_nth_length; auto.
Qed.
Lemma h_run_other ops ops' k : ops_pre [] (ops ++ ops') -> (forall op, In op ops' -> touches op <> Some k) ->
  k < length (v_run ops) ->
  obs_vars (h_run (ops ++ ops')) k = obs_vars (h_run ops) k /\
  obs_vals (h_run (ops ++ ops')) k = obs_vals (h_run ops) k /\
  (forall v, obs_index (h_run (ops ++ ops')) k v = obs_index (h_run ops) k v) /\
  (forall v, obs_has (h_run (ops ++ ops')) k v = obs_has (h_run ops) k v) /\
  (forall i, obs_variable (h_run (ops ++ ops')) k i = obs_variable (h_run ops) k i).
Proof.
  intros P T L. pose proof (ops_pre_app ops [] ops' P) as [P1 P2].
  destruct (box_heap_refines (ops ++ ops') k P) as (A1 & A2 & A3 & A4 & A5).
  destruct (box_heap_refines ops k P1) as (B1 & B2 & B3 & B4 & B5).
  assert (E : vget (v_run (ops ++ ops')) k = vget (v_run ops) k).
  { unfold v_run. rewrite fold_left_app. apply v_run_other; auto. }
  rewrite E in *. split; [congruence|]. split; [congruence|]. split; [|split]; intros; rewrite ?A3, ?B3, ?A4, ?B4, ?A5, ?B5; reflexivity.
Qed.
