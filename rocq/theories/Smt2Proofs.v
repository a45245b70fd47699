(** * Proofs about the SMT-LIB front end: functions, quantifiers, let *)
From Coq Require Import ZArith Reals Lra Lia List Bool ClassicalDescription Classical.
From Flocq Require Import IEEE754.BinarySingleNaN.
From Verif Require Import Dbl DblProofs Syntax Sem SemProofs FormulaCons FormulaConsProofs IEval StdInterp MathConv ExplainProofs IteElimProofs
  Order ExprAlg SpecAlg PowProofs ExprAlgProofs AlgClosed Subst SubstProofs AlgTop Context SpecCtx Smt2 SpecSmt2 SmtOcc.
Import ListNotations.

Lemma decide_iff P Q : (P <-> Q) -> decide P = decide Q.
Proof. intros H. unfold decide. destruct (excluded_middle_informative P), (excluded_middle_informative Q); tauto. Qed.
Lemma decide_true P : decide P = true <-> P.
Proof. unfold decide. destruct (excluded_middle_informative P); split; intros; auto; try discriminate; tauto. Qed.
Lemma decide_false P : decide P = false <-> ~ P.
Proof. unfold decide. destruct (excluded_middle_informative P); split; intros; auto; try discriminate; tauto. Qed.
Lemma decide_bool (b : bool) P : (b = true <-> P) -> b = decide P.
Proof. intros H. destruct b; symmetry; [apply decide_true|apply decide_false]; [tauto|]. intros X. apply H in X. discriminate. Qed.

Definition asserts (ops : list cop) : list formula := flat_map (fun o => match o with OAssert f => [f] | _ => [] end) ops.

Section Front.
  Variables (uf : nat -> list R -> R) (rc : dbl -> dbl -> R) (fpow : dbl -> dbl -> dbl) (n : nat) (alloc : nat -> nat).
  Notation M := (std uf rc).
  Notation ev := (evalE M).
  Notation hd := (holds M).
  Notation df := (defE M stdD).
  Notation dF := (defF M stdD).
  Notation ok := (Forall (exact M)).
  Hypothesis Hal : forall i j, i < j -> alloc i < alloc j.
  Lemma al_le i j : i <= j -> alloc i <= alloc j.
  Proof. intros H. destruct (Nat.eq_dec i j) as [->|N]; auto. specialize (Hal i j). lia. Qed.

  (** ** Terms *)
  Definition tval (t : term) (rho : env) : value := match t with TmE e => VR (ev e rho) | TmF f => VB (decide (hd f rho)) end.
  Definition tdf (t : term) (rho : env) : Prop := match t with TmE e => df e rho | TmF f => dF f rho end.
  Definition occT (B A : var -> Prop) (t : term) : Prop := match t with TmE e => occE B A e | TmF f => occF B A f end.
  Lemma tval_agree B A t rho rho' : occT B A t -> (forall v, A v -> rho v = rho' v) -> tval t rho = tval t rho'.
  Proof.
    intros Ho Ha. destruct t as [e|f]; cbn [tval].
    - f_equal. apply evalE_agree. intros v Hv. apply Ha. apply (proj1 (occ_fv B) e A Ho v Hv).
    - f_equal. apply decide_iff. apply holds_agree. intros v Hv. apply Ha. apply (proj2 (occ_fv B) f A Ho v Hv).
  Qed.
  Lemma tdf_agree B A t rho rho' : occT B A t -> (forall v, A v -> rho v = rho' v) -> tdf t rho -> tdf t rho'.
  Proof.
    intros Ho Ha. destruct t as [e|f]; cbn [tdf].
    - apply (proj1 (def_agree M stdD) e rho rho'). intros v Hv. apply Ha. apply (proj1 (occ_fv B) e A Ho v Hv).
    - apply (proj2 (def_agree M stdD) f rho rho'). intros v Hv. apply Ha. apply (proj2 (occ_fv B) f A Ho v Hv).
  Qed.
  Lemma occT_mono (B B' A A' : var -> Prop) t : (forall v, B v -> B' v) -> (forall v, A v -> A' v) -> occT B A t -> occT B' A' t.
  Proof.
    intros HB HA H. destruct t as [e|f]; cbn [occT] in *.
    - apply (proj1 (occ_bound B B' HB)). apply (occE_mono B e A A' HA H).
    - apply (proj2 (occ_bound B B' HB)). apply (occF_mono B f A A' HA H).
  Qed.

  (** ** States *)
  Definition Bs (s : drv) (v : var) : Prop := exists x, In x (d_notes s) /\ In v (fst (fst x)).
  Definition Ps (s : drv) (v : var) : Prop := exists x, In x (d_funs s) /\ In v (fd_params (snd x)).
  Definition As (s : drv) (v : var) : Prop := vid v < alloc (d_next s) /\ ~ Bs s v /\ ~ Ps s v.
  Record SInv (s : drv) : Prop := {
    si_scope : forall x v, In (x, v) (d_scope s) -> As s v;
    si_b : forall v, Bs s v -> vid v < alloc (d_next s);
    si_p : forall v, Ps s v -> vid v < alloc (d_next s);
    si_pb : forall v, Ps s v -> ~ Bs s v;
    si_fun : forall f fd, In (f, fd) (d_funs s) -> NoDup (fd_params fd) /\ occT (Bs s) (fun v => As s v \/ In v (fd_params fd)) (fd_body fd) }.
  Definition ext (s s' : drv) : Prop :=
    d_next s <= d_next s' /\ (forall v, Bs s v -> Bs s' v) /\ (forall v, Bs s' v -> Bs s v \/ alloc (d_next s) <= vid v) /\
    (forall v, Ps s' v -> Ps s v \/ alloc (d_next s) <= vid v).
  Lemma ext_refl s : ext s s. Proof. repeat split; auto. Qed.
  Lemma ext_trans s s1 s2 : ext s s1 -> ext s1 s2 -> ext s s2.
  Proof.
    intros (N1 & B1 & C1 & P1) (N2 & B2 & C2 & P2). pose proof (al_le _ _ N1). repeat split; auto; try lia.
    - intros v Hv. destruct (C2 v Hv) as [X|X]; [auto|right; lia].
    - intros v Hv. destruct (P2 v Hv) as [X|X]; [auto|right; lia].
  Qed.
  Lemma ext_As s s' v : ext s s' -> As s v -> As s' v.
  Proof.
    intros (N & B1 & B2 & P) (H1 & H2 & H3). pose proof (al_le _ _ N). repeat split; [lia| |].
    - intros X. destruct (B2 v X); [auto|lia].
    - intros X. destruct (P v X); [auto|lia].
  Qed.
  Lemma ext_occT s s' t : ext s s' -> occT (Bs s) (As s) t -> occT (Bs s') (As s') t.
  Proof. intros H. apply occT_mono; [apply H|intros v; now apply ext_As]. Qed.
  Lemma ext_occF s s' f : ext s s' -> occF (Bs s) (As s) f -> occF (Bs s') (As s') f.
  Proof. intros H K. apply (ext_occT s s' (TmF f) H K). Qed.

  Lemma assoc_In {X} x (l : list (nat * X)) a : assoc x l = Some a -> In (x, a) l.
  Proof. induction l as [|[y b] l IH]; cbn [assoc]; [discriminate|]. destruct (Nat.eqb x y) eqn:E; [|right; auto]. intros [= ->]. apply Nat.eqb_eq in E. subst. left; auto. Qed.

  (** ** Assignments *)
  Definition FDT := nat -> list value -> Prop.
  Definition enc (v : value) : R := match v with VR r => r | VB b => if b then 1%R else 0%R end.
  Fixpoint setv (ps : list var) (vs : list value) (rho : env) (w : var) : R :=
    match ps, vs with
    | p :: ps', x :: vs' => if var_eqb w p then enc x else setv ps' vs' rho w
    | _, _ => rho w
    end.
  Definition kind_ok (p : var) (x : value) : Prop := match vty p, x with BOOLEAN, VB _ => True | BOOLEAN, VR _ => False | _, VR _ => True | _, VB _ => False end.
  Definition RelS (s : drv) (E : nenv) (rho : env) : Prop := forall x v, assoc x (d_scope s) = Some v -> E x = varval v rho.
  Definition FR (s : drv) (FN : fenv) (FD : FDT) (rho : env) : Prop := forall f fd, assoc f (d_funs s) = Some fd ->
    forall vs, Forall2 kind_ok (fd_params fd) vs -> FD f vs ->
    tval (fd_body fd) (setv (fd_params fd) vs rho) = FN f vs /\ tdf (fd_body fd) (setv (fd_params fd) vs rho).
  Definition upto (s : drv) (rho rho' : env) : Prop :=
    forall v, vid v < alloc (d_next s) \/ vty v = INTEGER \/ vty v = BINARY -> rho' v = rho v.
  Lemma varval_enc v x rho : kind_ok v x -> rho v = enc x -> varval v rho = x.
  Proof.
    unfold kind_ok, varval. intros K H. destruct (vty v), x as [r|b]; try tauto; cbn [enc] in H; rewrite H; auto.
    f_equal. destruct b; [apply decide_true|apply decide_false]; lra.
  Qed.
  Lemma varval_kind v rho : kind_ok v (varval v rho).
  Proof. unfold kind_ok, varval. destruct (vty v); exact I. Qed.
  Lemma enc_varval v rho : typed_val (vty v) (rho v) -> enc (varval v rho) = rho v.
  Proof.
    unfold varval. destruct (vty v); cbn [typed_val enc]; auto. unfold decide. destruct (excluded_middle_informative _); auto. intros [X|X]; [auto|contradiction].
  Qed.
  Lemma varval_eq v rho rho' : rho v = rho' v -> varval v rho = varval v rho'.
  Proof. unfold varval. intros ->. reflexivity. Qed.
  Lemma setv_agree ps vs rho rho' w : (~ In w ps -> rho w = rho' w) -> length vs = length ps -> setv ps vs rho w = setv ps vs rho' w.
  Proof.
    revert vs. induction ps as [|p ps IH]; intros [|x vs] H L; cbn [setv]; try discriminate; [apply H; intros []|].
    destruct (var_eqb w p) eqn:E; auto. apply IH; auto. intros X. apply H. intros [Y|Y]; auto. subst. rewrite (proj2 (var_eqb_eq w w) eq_refl) in E. discriminate.
  Qed.
  Lemma setv_out ps vs rho w : ~ In w ps -> setv ps vs rho w = rho w.
  Proof.
    revert vs. induction ps as [|p ps IH]; intros [|x vs] H; cbn [setv]; auto. destruct (var_eqb w p) eqn:E.
    - apply var_eqb_eq in E. subst. destruct H. left; auto.
    - apply IH. intros X. apply H. right; auto.
  Qed.
  Lemma kinds_length ps vs : Forall2 kind_ok ps vs -> length vs = length ps.
  Proof. induction 1; cbn [length]; auto. Qed.

  Lemma RelS_agree s E rho rho' : SInv s -> (forall v, As s v -> rho v = rho' v) -> RelS s E rho -> RelS s E rho'.
  Proof.
    intros HI Ha H x v E1. rewrite (H x v E1). apply varval_eq, Ha. apply (si_scope s HI x v). now apply assoc_In.
  Qed.
  Lemma FR_agree s FN FD rho rho' : SInv s -> (forall v, As s v -> rho v = rho' v) -> FR s FN FD rho -> FR s FN FD rho'.
  Proof.
    intros HI Ha H f fd E1 vs Hk Hd. destruct (H f fd E1 vs Hk Hd) as [V1 D1].
    destruct (si_fun s HI f fd (assoc_In _ _ _ E1)) as [_ Ho].
    assert (K : forall v, As s v \/ In v (fd_params fd) -> setv (fd_params fd) vs rho v = setv (fd_params fd) vs rho' v).
    { intros v Hv. apply setv_agree; [|now apply kinds_length]. intros X. apply Ha. tauto. }
    split; [rewrite <- V1; symmetry; eapply tval_agree; eauto|eapply tdf_agree; eauto].
  Qed.

  Lemma RelS_ext s E rho rho' : (forall v, rho v = rho' v) -> RelS s E rho -> RelS s E rho'.
  Proof. intros H K x v Hx. rewrite (K x v Hx). apply varval_eq, H. Qed.

  (** ** A stretch of elaboration *)
  Definition strct (s s' : drv) (cs : list formula) : Prop :=
    ext s s' /\ d_funs s' = d_funs s /\ SInv s' /\ asserts (d_ops s') = cs ++ asserts (d_ops s) /\ (forall f, In f cs -> occF (Bs s') (As s') f).
  Definition keeps (rho rho' : env) : Prop := forall v, typed_val (vty v) (rho v) -> typed_val (vty v) (rho' v).
  Definition sem (s s' : drv) (cs : list formula) (FN : fenv) (FD : FDT) (E E' : nenv) (p Q : env -> Prop) : Prop :=
    forall rho, RelS s E rho -> FR s FN FD rho -> p rho ->
      ((forall f, In f cs -> hd f rho) -> Q rho /\ RelS s' E' rho) /\
      exists rho', upto s rho rho' /\ keeps rho rho' /\ forall f, In f cs -> dF f rho' /\ hd f rho'.
  Lemma upto_As s rho rho' v : upto s rho rho' -> As s v -> rho v = rho' v.
  Proof. intros H (K & _). symmetry. apply H. auto. Qed.
  Lemma strct_refl s : SInv s -> strct s s [].
  Proof. intros H. exact (conj (ext_refl s) (conj eq_refl (conj H (conj eq_refl (fun f (X : In f []) => False_ind _ X))))). Qed.
  Lemma strct_seq s s1 s2 cs1 cs2 : strct s s1 cs1 -> strct s1 s2 cs2 -> strct s s2 (cs2 ++ cs1).
  Proof.
    intros (G1 & G2 & G3 & G4 & G5) (K1 & K2 & K3 & K4 & K5).
    split; [eapply ext_trans; eauto|]. split; [congruence|]. split; [auto|]. split; [rewrite K4, G4, app_assoc; auto|].
    intros f Hf. apply in_app_iff in Hf. destruct Hf as [Hf|Hf]; auto. apply (ext_occF s1); auto.
  Qed.
  Lemma sem_refl s FN FD E (p Q : env -> Prop) : (forall rho, RelS s E rho -> FR s FN FD rho -> p rho -> Q rho) -> sem s s [] FN FD E E p Q.
  Proof. intros H rho HR HF Hp. split; auto. exists rho. split; [intros v _; auto|]. split; [intros v; auto|intros f []]. Qed.
  Lemma sem_weaken s s' cs FN FD E E' (p p' Q Q' : env -> Prop) : sem s s' cs FN FD E E' p Q -> (forall rho, p' rho -> p rho) ->
    (forall rho, RelS s E rho -> FR s FN FD rho -> p' rho -> Q rho -> Q' rho) -> sem s s' cs FN FD E E' p' Q'.
  Proof. intros H Hp HQ rho HR HF H'. destruct (H rho HR HF (Hp _ H')) as [V X]. split; auto. intros Hc. destruct (V Hc). auto. Qed.
  Lemma sem_seq s s1 s2 cs1 cs2 FN FD E E1 E2 (p p1 p2 Q1 Q2 : env -> Prop) : SInv s -> strct s s1 cs1 -> strct s1 s2 cs2 ->
    sem s s1 cs1 FN FD E E1 p1 Q1 -> sem s1 s2 cs2 FN FD E1 E2 p2 Q2 ->
    (forall rho rho', upto s rho rho' -> p rho -> p rho') -> (forall rho, p rho -> p1 rho) -> (forall rho, p rho -> Q1 rho -> p2 rho) ->
    sem s s2 (cs2 ++ cs1) FN FD E E2 p (fun rho => Q1 rho /\ Q2 rho).
  Proof.
    intros HI (G1 & G2 & G3 & G4 & G5) (K1 & K2 & K3 & K4 & K5) S1 S2 St P1 P2 rho HR HF Hp.
    assert (FS : forall r, FR s FN FD r -> FR s1 FN FD r) by (intros r Hr f fd Hx; apply Hr; rewrite <- G2; auto).
    destruct (S1 rho HR HF (P1 _ Hp)) as [V1 (r1 & U1 & T1 & X1)].
    assert (HR0 : RelS s E r1) by (apply (RelS_agree s E rho r1 HI); auto; intros v Hv; apply (upto_As s); auto).
    assert (HF0 : FR s FN FD r1) by (apply (FR_agree s FN FD rho r1 HI); auto; intros v Hv; apply (upto_As s); auto).
    assert (Hp1 : p r1) by (apply (St rho); auto).
    destruct (S1 r1 HR0 HF0 (P1 _ Hp1)) as [V1' _]. destruct (V1' (fun f Hf => proj2 (X1 f Hf))) as [Q1' R1'].
    destruct (S2 r1 R1' (FS _ HF0) (P2 _ Hp1 Q1')) as [_ (r2 & U2 & T2 & X2)].
    split.
    - intros Hf. destruct V1 as [Y1 Y2]. { intros f X; apply Hf, in_app_iff; auto. }
      destruct (S2 rho Y2 (FS _ HF) (P2 _ Hp Y1)) as [V2 _]. destruct V2 as [Z1 Z2]. { intros f X; apply Hf, in_app_iff; auto. }
      auto.
    - exists r2. pose proof (al_le _ _ (proj1 G1)) as L. split; [|split].
      + intros v Hv. rewrite (U2 v) by (destruct Hv; [left; lia|auto]). apply U1; auto.
      + intros v Hv. apply T2, T1, Hv.
      + intros f Hf. apply in_app_iff in Hf. destruct Hf as [Hf|Hf]; auto. destruct (X1 f Hf) as [Y1 Y2].
        assert (Ag : forall v, In v (fvF f) -> r1 v = r2 v).
        { intros v Hv. apply (upto_As s1); auto. apply (proj2 (occ_fv (Bs s1)) f (As s1) (G5 f Hf) v Hv). }
        split; [apply (proj2 (def_agree M stdD) f r1 r2 Ag Y1)|apply (holds_agree M f r1 r2 Ag); auto].
  Qed.

  (** ** Function application *)
  Definition upd1 (p : var) (x : value) (rho : env) : env := fun w => if var_eqb w p then enc x else rho w.
  Lemma image1 {X} p (a : X) v : image v [(p, a)] = if var_eqb v p then Some a else None.
  Proof. unfold image. cbn [find fst]. destruct (var_eqb v p); reflexivity. Qed.
  Lemma image0 {X} v : image v (@nil (var * X)) = None. Proof. reflexivity. Qed.
  Lemma updated1 p a rho v : type_ok a (vty p) = true ->
    match a with TmE e => updated M [(p, e)] [] rho v | TmF f => updated M [] [(p, f)] rho v end = upd1 p (tval a rho) rho v.
  Proof.
    intros T. unfold updated, imgE, imgF, upd1. destruct a as [e|f]; rewrite ?image1, ?image0; unfold type_ok in T; cbn [is_form] in T;
      destruct (var_eqb v p) eqn:Ev.
    - apply var_eqb_eq in Ev. subst v. destruct (vty p); try reflexivity. discriminate.
    - destruct (vty v); reflexivity.
    - apply var_eqb_eq in Ev. subst v. destruct (vty p); try discriminate. cbn [tval enc]. unfold decide. destruct (excluded_middle_informative _); reflexivity.
    - destruct (vty v); reflexivity.
  Qed.
  Lemma slookup1 {X} p (a : X) v : slookup v [(p, a)] = if var_eqb v p then Some a else None.
  Proof. cbn [slookup]. destruct (var_eqb v p); reflexivity. Qed.
  Lemma term_subst_ev B (A A' : var -> Prop) t p a : type_ok a (vty p) = true -> occT B A t -> occT B A' a ->
    (forall v, A v -> v <> p -> A' v) -> (forall v, A' v -> ~ B v) ->
    forall r tr, term_subst fpow n t p a = (Val r, tr) -> ok tr ->
    is_form r = is_form t /\ occT B A' r /\
    forall rho, tdf a rho -> tdf t (upd1 p (tval a rho) rho) -> tval r rho = tval t (upd1 p (tval a rho) rho) /\ tdf r rho.
  Proof.
    intros T Ho Ha HA HB r tr E Ht.
    assert (EQ : forall v, var_eqb v p = false -> v <> p) by (intros v X -> ; rewrite (proj2 (var_eqb_eq p p) eq_refl) in X; discriminate).
    destruct a as [e|f].
    - assert (Tp : vty p <> BOOLEAN) by (intros X; unfold type_ok in T; rewrite X in T; discriminate).
      assert (Im : imgs B A A' [(p, e)] []).
      { split; intros v Hv Ty; rewrite ?slookup1; cbn [slookup]; [destruct (var_eqb v p) eqn:Ev; auto|]. apply HA; auto. intros ->. auto. }
      assert (Iv : forall v w, B w -> ~ In w (ivars [(p, e)] [] v)).
      { intros v w Hw Hin. apply (HB w); auto. unfold ivars, imgE, imgF in Hin. rewrite image1, image0 in Hin.
        destruct (var_eqb v p); destruct (vty v); try destruct Hin; apply (proj1 (occ_fv B) e A' Ha w Hin). }
      assert (Id : forall rho, df e rho -> forall v, idef M stdD [(p, e)] [] rho v).
      { intros rho De v. unfold idef, imgE, imgF. rewrite image1, image0. destruct (vty v), (var_eqb v p); auto. }
      destruct t as [b|b]; cbn [term_subst] in E; apply bind_val in E; destruct E as (x & t1 & t2 & E1 & E2 & ->);
        apply ret_val in E2; destruct E2 as [-> ->]; rewrite app_nil_r in Ht; cbn [is_form]; (split; [reflexivity|]); split.
      + apply (occ_substE M fpow n B A A' _ _ b Im Ho _ _ E1 Ht).
      + intros rho De Db. cbn [tdf tval] in *.
        assert (Ag : forall v, upd1 p (VR (ev e rho)) rho v = updated M [(p, e)] [] rho v) by (intros v; symmetry; apply (updated1 p (TmE e) rho v T)).
        destruct (subst_top_E uf rc fpow n [(p, e)] [] b rho x t1) as [D1 V1]; auto.
        * apply (proj1 (occ_sok B _ _ Iv) b A []); auto. intros w [].
        * apply (proj1 (def_agree M stdD) b (upd1 p (VR (ev e rho)) rho)); auto.
        * split; auto. f_equal. rewrite V1. apply evalE_agree. intros v _. symmetry. apply Ag.
      + apply (occ_substF M fpow n B A A' _ _ b Im Ho _ _ E1 Ht).
      + intros rho De Db. cbn [tdf tval] in *.
        assert (Ag : forall v, upd1 p (VR (ev e rho)) rho v = updated M [(p, e)] [] rho v) by (intros v; symmetry; apply (updated1 p (TmE e) rho v T)).
        destruct (subst_top_F uf rc fpow n [(p, e)] [] b rho x t1) as [D1 V1]; auto.
        * apply (proj2 (occ_sok B _ _ Iv) b A []); auto. intros w [].
        * apply (proj2 (def_agree M stdD) b (upd1 p (VR (ev e rho)) rho)); auto.
        * split; auto. f_equal. apply decide_iff. rewrite V1. apply holds_agree. intros v _. symmetry. apply Ag.
    - assert (Tp : vty p = BOOLEAN) by (unfold type_ok in T; cbn [is_form] in T; destruct (vty p); auto; discriminate).
      assert (Im : imgs B A A' [] [(p, f)]).
      { split; intros v Hv Ty; rewrite ?slookup1; cbn [slookup]; [|destruct (var_eqb v p) eqn:Ev; auto]. apply HA; auto. intros ->. auto. }
      assert (Iv : forall v w, B w -> ~ In w (ivars [] [(p, f)] v)).
      { intros v w Hw Hin. apply (HB w); auto. unfold ivars, imgE, imgF in Hin. rewrite image1, image0 in Hin.
        destruct (var_eqb v p); destruct (vty v); try destruct Hin; apply (proj2 (occ_fv B) f A' Ha w Hin). }
      assert (Id : forall rho, dF f rho -> forall v, idef M stdD [] [(p, f)] rho v).
      { intros rho De v. unfold idef, imgE, imgF. rewrite image1, image0. destruct (vty v), (var_eqb v p); auto. }
      destruct t as [b|b]; cbn [term_subst] in E; apply bind_val in E; destruct E as (x & t1 & t2 & E1 & E2 & ->);
        apply ret_val in E2; destruct E2 as [-> ->]; rewrite app_nil_r in Ht; cbn [is_form]; (split; [reflexivity|]); split.
      + apply (occ_substE M fpow n B A A' _ _ b Im Ho _ _ E1 Ht).
      + intros rho De Db. cbn [tdf] in De, Db. set (tv := tval (TmF f) rho) in *.
        assert (Ag : forall v, upd1 p tv rho v = updated M [] [(p, f)] rho v) by (intros v; symmetry; apply (updated1 p (TmF f) rho v T)).
        destruct (subst_top_E uf rc fpow n [] [(p, f)] b rho x t1) as [D1 V1]; auto.
        * apply (proj1 (occ_sok B _ _ Iv) b A []); auto. intros w [].
        * apply (proj1 (def_agree M stdD) b (upd1 p tv rho)); auto.
        * split; auto. cbn [tval]. f_equal. rewrite V1. apply evalE_agree. intros v _. symmetry. apply Ag.
      + apply (occ_substF M fpow n B A A' _ _ b Im Ho _ _ E1 Ht).
      + intros rho De Db. cbn [tdf] in De, Db. set (tv := tval (TmF f) rho) in *.
        assert (Ag : forall v, upd1 p tv rho v = updated M [] [(p, f)] rho v) by (intros v; symmetry; apply (updated1 p (TmF f) rho v T)).
        destruct (subst_top_F uf rc fpow n [] [(p, f)] b rho x t1) as [D1 V1]; auto.
        * apply (proj2 (occ_sok B _ _ Iv) b A []); auto. intros w [].
        * apply (proj2 (def_agree M stdD) b (upd1 p tv rho)); auto.
        * split; auto. cbn [tval]. f_equal. apply decide_iff. rewrite V1. apply holds_agree. intros v _. symmetry. apply Ag.
  Qed.

  Lemma apply_args_ev B (A : var -> Prop) : (forall v, A v -> ~ B v) -> forall ps args t, length args = length ps -> NoDup ps -> (forall p, In p ps -> ~ A p) ->
    (forall p, In p ps -> ~ B p) ->
    occT B (fun v => A v \/ In v ps) t -> Forall (occT B A) args ->
    forall r tr, apply_args fpow n t ps args = (Val r, tr) -> ok tr ->
    is_form r = is_form t /\ occT B A r /\ Forall2 (fun p a => type_ok a (vty p) = true) ps args /\
    forall rho, Forall (fun a => tdf a rho) args -> tdf t (setv ps (map (fun a => tval a rho) args) rho) ->
      tval r rho = tval t (setv ps (map (fun a => tval a rho) args) rho) /\ tdf r rho.
  Proof.
    intros HAB. induction ps as [|p ps IH]; intros [|a args] t L ND HA HB Ho Hoa r tr E Ht; try discriminate; cbn [apply_args] in E.
    - apply ret_val in E. destruct E as [-> ->]. split; auto. split.
      + apply (occT_mono B B (fun v => A v \/ In v [])); auto. intros v [X|[]]; auto.
      + split; [constructor|]. intros rho _ D. cbn [setv map] in *. auto.
    - destruct (type_ok a (vty p)) eqn:T; [|discriminate]. apply bind_val in E. destruct E as (t' & t1 & t2 & E1 & E2 & ->).
      apply Forall_app in Ht. destruct Ht as [O1 O2]. inversion ND; subst. inversion Hoa; subst.
      assert (Ha' : occT B (fun v => A v \/ In v ps) a) by (apply (occT_mono B B A); auto).
      destruct (term_subst_ev B (fun v => A v \/ In v (p :: ps)) (fun v => A v \/ In v ps) t p a T Ho Ha') with (r := t') (tr := t1) as (F1 & Oc1 & V1); auto.
      { intros v [X|[X|X]] Nv; auto. congruence. }
      { intros v [X|X]; auto. apply HB. right; auto. }
      destruct (IH args t' ltac:(cbn in L; lia) H2 (fun q X => HA q (or_intror X)) (fun q X => HB q (or_intror X)) Oc1 H4 r t2 E2 O2) as (F2 & Oc2 & T2 & V2).
      split; [congruence|]. split; auto. split; [constructor; auto|].
      intros rho Da D. pose proof (Forall_inv Da) as Da0. pose proof (Forall_inv_tail Da) as Da1. cbn [map setv] in *.
      set (vs := map (fun a => tval a rho) args) in *.
      assert (Lv : length vs = length ps) by (subst vs; rewrite map_length; cbn in L; lia).
      set (rho2 := setv ps vs rho) in *.
      assert (Va : tval a rho2 = tval a rho).
      { apply (tval_agree B A); auto. intros v Hv. subst rho2. apply setv_out. intros X. apply (HA v); auto. right; auto. }
      assert (Da2 : tdf a rho2).
      { apply (tdf_agree B A a rho rho2); auto. intros v Hv. subst rho2. symmetry. apply setv_out. intros X. apply (HA v); auto. right; auto. }
      assert (Ag : forall v, setv (p :: ps) (tval a rho :: vs) rho v = upd1 p (tval a rho2) rho2 v).
      { intros v. cbn [setv]. unfold upd1. rewrite Va. reflexivity. }
      destruct (V1 rho2 Da2) as [X1 X2].
      { apply (tdf_agree B _ t (setv (p :: ps) (tval a rho :: vs) rho) _ Ho); auto. }
      destruct (V2 rho Da1 X2) as [Y1 Y2]. split; auto. transitivity (tval t' rho2); [exact Y1|]. transitivity (tval t (upd1 p (tval a rho2) rho2)); [exact X1|].
      apply (tval_agree B _ t _ _ Ho). intros v _. symmetry. apply Ag.
  Qed.

  (** ** Quantifiers *)
  Definition bndR (bd : dbl * dbl) (x : R) : Prop := (is_finite (fst bd) = true -> (B2R (fst bd) <= x)%R) /\ (is_finite (snd bd) = true -> (x <= B2R (snd bd))%R).
  Lemma between_bnd b x : binder_ok b -> snd (fst b) <> SoBool -> (between (fst (snd b)) (snd (snd b)) x <-> bndR (snd b) x).
  Proof.
    intros ((w & Hs & Hb) & N1 & N2 & _) Hso. destruct b as [[nm so] [l u]]. cbn [fst snd] in *.
    assert (Hw : exists y, between l u y).
    { destruct w as [r|[|]]; [exists r; exact Hb|destruct so; cbn in Hs; tauto|destruct so; cbn in Hs; tauto]. }
    destruct Hw as (y & Y1 & Y2). unfold between, bndR. cbn [fst snd].
    destruct l as [ls|[|]| |ls lm le lp], u as [us|[|]| |us um ue up]; try discriminate; cbn [is_finite] in *; cbn [d2e ext_le] in *;
      try tauto; try (split; intros [? ?]; split; auto; try discriminate; try tauto); intuition (try discriminate).
  Qed.

  Lemma occ_const B A c : occE B A (mk_const c). Proof. exact I. Qed.
  Lemma df_const c rho : df (mk_const c) rho. Proof. exact I. Qed.
  Lemma domain_of_ev B (A : var -> Prop) q dom tr : domain_of fpow n q = (Val dom, tr) -> ok tr ->
    (forall v bd, In (v, bd) q -> vty v = BOOLEAN -> is_finite (fst bd) = false /\ is_finite (snd bd) = false) -> (forall v, In v (map fst q) -> A v) ->
    occF B A dom /\ forall rho, dF dom rho /\ (hd dom rho <-> forall v bd, In (v, bd) q -> bndR bd (rho v)).
  Proof.
    revert dom tr. induction q as [|[v [l u]] q IH]; intros dom tr E Ht Hb HA; cbn [domain_of] in E.
    - apply ret_val in E. destruct E as [-> ->]. split; [exact I|]. intros rho. split; [exact I|]. split; [intros _ w bd []|exact (fun _ => I)].
    - apply bind_val in E. destruct E as (d & t1 & t2 & E1 & E2 & ->). destruct ((is_finite l || is_finite u) && vtype_eqb (vty v) BOOLEAN); [discriminate|].
      apply bind_val in E2. destruct E2 as (d1 & t3 & t4 & E2 & E3 & ->).
      apply Forall_app in Ht. destruct Ht as [O1 O2]. apply Forall_app in O2. destruct O2 as [O3 O4].
      destruct (IH d t1 E1 O1) as [Oc Sm]. { intros w bd X. apply Hb. right; auto. } { intros w X. apply HA. right; auto. }
      assert (Av : A v) by (apply HA; left; auto).
      assert (K1 : occF B A d1 /\ forall rho, dF d1 rho /\ (hd d1 rho <-> (forall w bd, In (w, bd) q -> bndR bd (rho w)) /\ (is_finite l = true -> (B2R l <= rho v)%R))).
      { destruct (is_finite l) eqn:Fl.
        - apply bind_val in E2. destruct E2 as (g & t5 & t6 & E4 & E5 & ->). apply ret_val in E5. destruct E5 as [-> ->]. rewrite app_nil_r in O3.
          assert (Ty : vty v <> BOOLEAN). { intros X. destruct (Hb v (l, u) (or_introl eq_refl) X) as [Y _]. cbn [fst] in Y. congruence. }
          assert (Og : occF B A g).
          { apply (occ_relm M fpow n B A RLeq (mk_const l) (EVar v)) with (t := t5); auto; [apply occ_const|exact (conj Av Ty)]. }
          split; [apply occ_mk_and; auto|]. intros rho.
          assert (Dl : df (mk_const l) rho) by apply df_const.
          destruct (mk_relm_ev uf rc fpow n RLeq (mk_const l) (EVar v) rho g t5 E4 O3 Dl I) as [D1 V1]. destruct (Sm rho) as [D2 V2].
          split; [apply (c_and _ (closed_def M stdD rho)); auto|]. rewrite mk_and_holds, V1, V2.
          assert (El : ev (mk_const l) rho = B2R l) by apply mk_const_ev.
          rewrite El. cbn [relR evalE]. tauto.
        - apply ret_val in E2. destruct E2 as [-> ->]. split; auto. intros rho. destruct (Sm rho) as [D2 V2]. split; auto. rewrite V2. intuition discriminate. }
      destruct K1 as [Oc1 Sm1].
      assert (K2 : occF B A dom /\ forall rho, dF dom rho /\ (hd dom rho <-> hd d1 rho /\ (is_finite u = true -> (rho v <= B2R u)%R))).
      { destruct (is_finite u) eqn:Fl.
        - apply bind_val in E3. destruct E3 as (g & t5 & t6 & E4 & E5 & ->). apply ret_val in E5. destruct E5 as [-> ->]. rewrite app_nil_r in O4.
          assert (Ty : vty v <> BOOLEAN). { intros X. destruct (Hb v (l, u) (or_introl eq_refl) X) as [_ Y]. cbn [snd] in Y. congruence. }
          assert (Og : occF B A g).
          { apply (occ_relm M fpow n B A RLeq (EVar v) (mk_const u)) with (t := t5); auto; [exact (conj Av Ty)|apply occ_const]. }
          split; [apply occ_mk_and; auto|]. intros rho.
          assert (Dl : df (mk_const u) rho) by apply df_const.
          destruct (mk_relm_ev uf rc fpow n RLeq (EVar v) (mk_const u) rho g t5 E4 O4 I Dl) as [D1 V1]. destruct (Sm1 rho) as [D2 V2].
          split; [apply (c_and _ (closed_def M stdD rho)); auto|]. rewrite mk_and_holds, V1.
          assert (El : ev (mk_const u) rho = B2R u) by apply mk_const_ev.
          rewrite El. cbn [relR evalE]. tauto.
        - apply ret_val in E3. destruct E3 as [-> ->]. split; auto. intros rho. destruct (Sm1 rho) as [D2 V2]. split; auto. intuition discriminate. }
      destruct K2 as [Oc2 Sm2]. split; auto. intros rho. destruct (Sm2 rho) as [D2 V2]. split; auto. rewrite V2. destruct (Sm1 rho) as [_ V1]. rewrite V1.
      split.
      + intros [[X1 X2] X3] w bd [X|X]; [|auto]. injection X as <- <-. split; auto.
      + intros X. destruct (X v (l, u) (or_introl eq_refl)) as [Y1 Y2]. cbn [fst snd] in *. repeat split; auto; intros; eapply (fun w bd H => proj1 (X w bd (or_intror H))) || eapply (fun w bd H => proj2 (X w bd (or_intror H))); eauto.
  Qed.

  Definition bools (vs : list var) : list var := filter (fun v => vtype_eqb (vty v) BOOLEAN) vs.
  Lemma in_bools vs v : In v (bools vs) <-> In v vs /\ vty v = BOOLEAN.
  Proof. unfold bools. rewrite filter_In. split; intros [H1 H2]; split; auto; destruct (vty v); auto; discriminate. Qed.
  Definition typed_on (vs : list var) (rho : env) : Prop := forall v, In v vs -> typed_val (vty v) (rho v).

  Lemma elim_bools_ev B : forall vs (A : var -> Prop) f body tr, (forall v, A v -> ~ B v) -> occF B A f -> elim_bools fpow n vs f = (Val body, tr) -> ok tr ->
    occF B (fun v => A v /\ ~ In v (bools vs)) body /\
    forall rho, (forall rho', agree_off (bools vs) rho rho' -> typed_on (bools vs) rho' -> dF f rho') ->
      dF body rho /\ (hd body rho <-> forall rho', agree_off (bools vs) rho rho' -> typed_on (bools vs) rho' -> hd f rho').
  Proof.
    induction vs as [|b vs IH]; intros A f body tr HAB Ho E Ht; cbn [elim_bools] in E.
    - apply ret_val in E. destruct E as [-> ->]. split; [apply (occF_mono B f A); auto; intros v Hv; split; auto; intros []|].
      assert (Eq : forall rho rho', agree_off (bools []) rho rho' -> forall v, rho v = rho' v) by (intros rho rho' X v; symmetry; apply X; intros []).
      intros rho D. split. { apply D; [intros v _; auto|intros v []]. }
      split.
      + intros H rho' X _. apply (holds_agree M f rho rho' (fun v _ => Eq _ _ X v)). exact H.
      + intros H. apply H; [intros v _; auto|intros v []].
    - destruct (vtype_eqb (vty b) BOOLEAN) eqn:Tb.
      + apply bind_val in E. destruct E as (f1 & t1 & t2 & E1 & E2 & ->). apply bind_val in E2. destruct E2 as (f2 & t3 & t4 & E2 & E3 & ->).
        apply Forall_app in Ht. destruct Ht as [O1 O2]. apply Forall_app in O2. destruct O2 as [O3 O4].
        assert (Tb' : vty b = BOOLEAN) by (destruct (vty b); auto; discriminate).
        assert (Ty : forall f0, type_ok (TmF f0) (vty b) = true) by (intros f0; unfold type_ok; rewrite Tb'; reflexivity).
        set (A' := fun v => A v /\ v <> b).
        assert (S1 : term_subst fpow n (TmF f) b (TmF FTrue) = (Val (TmF f1), t1)) by (cbn [term_subst]; rewrite E1; cbn [bind ret]; rewrite app_nil_r; auto).
        assert (S2 : term_subst fpow n (TmF f) b (TmF FFalse) = (Val (TmF f2), t3)) by (cbn [term_subst]; rewrite E2; cbn [bind ret]; rewrite app_nil_r; auto).
        destruct (term_subst_ev B A A' (TmF f) b (TmF FTrue) (Ty _) Ho I) with (r := TmF f1) (tr := t1) as (_ & Oc1 & V1); auto; try (intros v Hv; split; auto); try (intros v [Hv _]; auto).
        destruct (term_subst_ev B A A' (TmF f) b (TmF FFalse) (Ty _) Ho I) with (r := TmF f2) (tr := t3) as (_ & Oc2 & V2); auto; try (intros v Hv; split; auto); try (intros v [Hv _]; auto).
        cbn [occT tdf] in *.
        destruct (IH A' (mk_and f1 f2) body t4) as [Oc Sm]; auto. { intros v [Hv _]; auto. } { apply occ_mk_and; auto. }
        assert (In_b : forall v, In v (bools (b :: vs)) <-> v = b \/ In v (bools vs)).
        { intros v. rewrite !in_bools. cbn [In]. split; [intros [[->|X] Y]; auto|intros [->|[X Y]]; auto]. }
        split. { apply (occF_mono B body (fun v => A' v /\ ~ In v (bools vs))); auto. intros v [[X1 X2] X3]. split; auto. rewrite In_b. intros [Y|Y]; auto. }
        intros rho D.
        assert (TV1 : forall r, tval (TmF FTrue) r = VB true) by (intros r; cbn [tval]; f_equal; apply decide_true; exact I).
        assert (TV2 : forall r, tval (TmF FFalse) r = VB false) by (intros r; cbn [tval]; f_equal; apply decide_false; intros []).
        assert (UP : forall rho' x, agree_off (bools vs) rho rho' -> typed_on (bools vs) rho' ->
                     agree_off (bools (b :: vs)) rho (upd1 b (VB x) rho') /\ typed_on (bools (b :: vs)) (upd1 b (VB x) rho')).
        { intros rho' x X Y. split.
          - intros v Hv. unfold upd1. destruct (var_eqb v b) eqn:Ev; [apply var_eqb_eq in Ev; subst v; destruct Hv; apply In_b; auto|]. apply X. intros Z. apply Hv, In_b. auto.
          - intros v Hv. unfold upd1. destruct (var_eqb v b) eqn:Ev.
            + apply var_eqb_eq in Ev. subst v. rewrite Tb'. destruct x; cbn; auto.
            + apply In_b in Hv. destruct Hv as [->|Hv]; auto. rewrite (proj2 (var_eqb_eq b b) eq_refl) in Ev. discriminate. }
        assert (S : forall rho', agree_off (bools vs) rho rho' -> typed_on (bools vs) rho' ->
                    dF (mk_and f1 f2) rho' /\ (hd (mk_and f1 f2) rho' <-> hd f (upd1 b (VB true) rho') /\ hd f (upd1 b (VB false) rho'))).
        { intros rho' X Y. destruct (UP rho' true X Y) as [P1 P2]. destruct (UP rho' false X Y) as [P3 P4].
          destruct (V1 rho') as [W1 D1]; [exact I|rewrite TV1; apply D; auto|]. destruct (V2 rho') as [W2 D2]; [exact I|rewrite TV2; apply D; auto|].
          rewrite TV1 in W1. rewrite TV2 in W2. cbn [tval tdf] in *. split; [apply (c_and _ (closed_def M stdD rho')); auto|].
          rewrite mk_and_holds. injection W1 as W1. injection W2 as W2.
          rewrite <- (decide_true (hd f1 rho')), <- (decide_true (hd f2 rho')), W1, W2, !decide_true. apply iff_refl. }
        destruct (Sm rho) as [D1 V]. { intros rho' X Y. apply (S rho' X Y). }
        split; auto. rewrite V. split.
        * intros H rho' X Y.
          set (r0 := fun v => if var_eqb v b then rho b else rho' v).
          assert (X0 : agree_off (bools vs) rho r0).
          { intros v Hv. unfold r0. destruct (var_eqb v b) eqn:Ev; [apply var_eqb_eq in Ev; subst v; auto|]. apply X. rewrite In_b. intros [Z|Z]; auto. subst v. rewrite (proj2 (var_eqb_eq b b) eq_refl) in Ev. discriminate. }
          assert (Y0 : typed_on (bools (b :: vs)) rho') by auto.
          assert (Tr : typed_val (vty b) (rho' b)) by (apply Y; apply In_b; auto). rewrite Tb' in Tr.
          assert (Nx : forall x, rho' b = enc (VB x) -> forall v, upd1 b (VB x) r0 v = rho' v).
          { intros x Hx v. unfold upd1, r0. destruct (var_eqb v b) eqn:Ev; auto. apply var_eqb_eq in Ev. subst v. auto. }
          destruct (in_dec var_eq_dec b (bools vs)) as [Ib|Ib].
          -- (* b occurs again *)
             assert (X1 : agree_off (bools vs) rho rho') by (intros v Hv; apply X; rewrite In_b; intros [->|Z]; auto).
             assert (Y1 : typed_on (bools vs) rho') by (intros v Hv; apply Y; apply In_b; auto).
             specialize (H rho' X1 Y1). apply (S rho' X1 Y1) in H. destruct H as [H1 H2].
             destruct Tr as [Tr|Tr]; [eapply (holds_agree M f); [|exact H2]|eapply (holds_agree M f); [|exact H1]];
               intros v _; unfold upd1; destruct (var_eqb v b) eqn:Ev; auto; apply var_eqb_eq in Ev; subst v; cbn [enc]; auto.
          -- assert (Y1 : typed_on (bools vs) r0).
             { intros v Hv. unfold r0. destruct (var_eqb v b) eqn:Ev; [apply var_eqb_eq in Ev; subst v; contradiction|]. apply Y. apply In_b; auto. }
             specialize (H r0 X0 Y1). apply (S r0 X0 Y1) in H. destruct H as [H1 H2].
             destruct Tr as [Tr|Tr]; [eapply (holds_agree M f); [|exact H2]|eapply (holds_agree M f); [|exact H1]]; intros v _; symmetry; apply Nx; auto.
        * intros H rho' X Y. apply (S rho' X Y). destruct (UP rho' true X Y). destruct (UP rho' false X Y). split; apply H; auto.
      + assert (Eb : bools (b :: vs) = bools vs) by (unfold bools; cbn [filter]; rewrite Tb; auto). rewrite Eb. apply (IH A f body tr); auto.
  Qed.

  (** Values of binders *)
  Definition bindl (xs : list nat) (vs : list value) (E : nenv) : nenv := fold_left (fun E' p => bindv (fst p) (snd p) E') (combine xs vs) E.
  Lemma args_env_bindl ps vs E : length vs = length ps -> args_env ps vs E = bindl (map fst ps) vs E.
  Proof.
    intros L. unfold args_env, bindl. f_equal. assert (K : forall (xs : list nat) (l k : list value), length l = length xs -> combine xs (l ++ k) = combine xs l).
    { induction xs as [|x xs IH]; intros [|v l] k H; try discriminate; auto. cbn [combine app]. f_equal. apply IH. now injection H. }
    apply K. now rewrite map_length.
  Qed.
  Lemma all_values_iff D bs : forall E k, all_values D bs E k <-> forall vs, Forall2 D bs vs -> k (bindl (map (fun b => fst (fst b)) bs) vs E).
  Proof.
    induction bs as [|b bs IH]; intros E k; cbn [all_values].
    - split; [intros H vs X; inversion X; subst; exact H|intros H; apply (H []); constructor].
    - split.
      + intros H vs X. inversion X; subst. specialize (H y H2). apply (proj1 (IH _ _)) with (vs := l') in H; auto.
      + intros H v Hv. apply (proj2 (IH _ _)). intros vs X. apply (H (v :: vs)). constructor; auto.
  Qed.
  Definition matches (b : binder) (p : var * (dbl * dbl)) : Prop := vty (fst p) = sort_type (snd (fst b)) /\ snd p = snd b.
  Lemma of_sort_typed v so x : vty v = sort_type so -> of_sort so x -> typed_val (vty v) (enc x) /\ kind_ok v x.
  Proof. intros Ht H. unfold kind_ok. rewrite Ht. destruct so, x as [r|[|]]; cbn in *; tauto. Qed.
  Lemma typed_of_sort v so rho : vty v = sort_type so -> typed_val (vty v) (rho v) -> of_sort so (varval v rho).
  Proof. intros Ht. unfold varval. rewrite Ht. destruct so; cbn; auto. Qed.
  Lemma setv_typed bs q vals rho : Forall2 matches bs q -> Forall2 in_sort bs vals -> typed_on (map fst q) (setv (map fst q) vals rho).
  Proof.
    intros Hm. revert vals. induction Hm as [|b [p bd] bs q Hb Hm IH]; intros vals Hv v Hin; cbn [map fst] in *; [destruct Hin|].
    inversion Hv; subst. cbn [setv]. destruct (var_eqb v p) eqn:Ev.
    - apply var_eqb_eq in Ev. subst v. apply (of_sort_typed p (snd (fst b))); auto. apply Hb.
    - apply IH; auto. destruct Hin as [->|X]; auto. rewrite (proj2 (var_eqb_eq v v) eq_refl) in Ev. discriminate.
  Qed.
  Lemma in_binder_bnd b p x : binder_ok b -> matches b p -> in_binder b x -> bndR (snd p) (enc x).
  Proof.
    intros Ok [M1 M2] [H1 H2]. rewrite M2. destruct x as [r|c].
    - apply (between_bnd b); auto. intros X. rewrite X in H1. exact H1.
    - assert (So : snd (fst b) = SoBool) by (destruct (snd (fst b)); auto; destruct H1). destruct Ok as (_ & _ & _ & K). destruct (K So) as [K1 K2].
      split; intros Z; congruence.
  Qed.
  Lemma setv_bnd bs q vals rho : Forall2 matches bs q -> Forall binder_ok bs -> NoDup (map fst q) -> Forall2 in_binder bs vals ->
    forall v bd, In (v, bd) q -> bndR bd (setv (map fst q) vals rho v).
  Proof.
    intros Hm. revert vals. induction Hm as [|b [p bd0] bs q Hb Hm IH]; intros vals Hok ND Hv v bd Hin; [destruct Hin|].
    cbn [map fst] in *. inversion Hv; subst. inversion Hok; subst. inversion ND; subst. cbn [setv]. destruct Hin as [X|X].
    - injection X as -> ->. rewrite (proj2 (var_eqb_eq v v) eq_refl). apply (in_binder_bnd b (v, bd)); auto.
    - destruct (var_eqb v p) eqn:Ev; [|apply IH; auto]. apply var_eqb_eq in Ev. subst v. exfalso. apply H5. apply (in_map fst q (p, bd) X).
  Qed.
  Lemma setv_varval vs rho1 rho w : typed_on vs rho1 -> setv vs (map (fun v => varval v rho1) vs) rho w = if in_dec var_eq_dec w vs then rho1 w else rho w.
  Proof.
    induction vs as [|p vs IH]; intros Ht; cbn [map setv].
    - destruct (in_dec var_eq_dec w []) as [[]|]; auto.
    - destruct (var_eqb w p) eqn:Ev.
      + apply var_eqb_eq in Ev. subst w. destruct (in_dec var_eq_dec p (p :: vs)) as [_|N]; [|destruct N; left; auto]. apply enc_varval, Ht. left; auto.
      + rewrite IH by (intros v Hv; apply Ht; right; auto). assert (N : p <> w) by (intros X; subst p; rewrite (proj2 (var_eqb_eq w w) eq_refl) in Ev; discriminate).
        destruct (in_dec var_eq_dec w vs), (in_dec var_eq_dec w (p :: vs)) as [X|X]; auto; [destruct X; right; auto|destruct X as [X|X]; contradiction].
  Qed.
  Lemma varval_in_sort bs q rho : Forall2 matches bs q -> typed_on (map fst q) rho -> Forall2 in_sort bs (map (fun v => varval v rho) (map fst q)).
  Proof.
    induction 1 as [|b [p bd] bs q Hb Hm IH]; intros Ht; cbn [map fst] in *; constructor.
    - apply (typed_of_sort p); [apply Hb|apply Ht; left; auto].
    - apply IH. intros v Hv. apply Ht. right; auto.
  Qed.
  Lemma varval_in_binder bs q rho : Forall2 matches bs q -> Forall binder_ok bs -> typed_on (map fst q) rho -> (forall v bd, In (v, bd) q -> bndR bd (rho v)) ->
    Forall2 in_binder bs (map (fun v => varval v rho) (map fst q)).
  Proof.
    induction 1 as [|b [p bd] bs q Hb Hm IH]; intros Hok Ht Hbd; cbn [map fst] in *; constructor; inversion Hok; subst.
    - destruct Hb as [Hb1 Hb2]. assert (So : of_sort (snd (fst b)) (varval p rho)) by (apply (typed_of_sort p); [auto|apply Ht; left; auto]). split; auto.
      specialize (Hbd p bd (or_introl eq_refl)). cbn [fst snd] in *. subst bd. unfold varval in *. destruct (vty p) eqn:Tp; cbn [bounded]; auto;
        (apply (between_bnd b); auto; intros X; rewrite X in Hb1; cbn in Hb1; congruence).
    - apply IH; auto. intros v Hv. apply Ht. right; auto. intros v bd' Hv. apply Hbd. right; auto.
  Qed.
  Lemma binders_inhabited bs : Forall binder_ok bs -> exists vals, Forall2 in_binder bs vals.
  Proof. induction 1 as [|b bs ((v & Hv) & _) _ (vals & IH)]; [exists []; constructor|exists (v :: vals); constructor; auto]. Qed.
  Lemma in_binder_sort bs vals : Forall2 in_binder bs vals -> Forall2 in_sort bs vals.
  Proof. induction 1 as [|b v bs vs [H1 H2] _ IH]; constructor; auto. Qed.

  Lemma hd_forall vs g rho : hd (FForall vs g) rho <-> (forall rho', agree_off vs rho rho' -> typed_on vs rho' -> hd g rho').
  Proof. exact (iff_refl _). Qed.
  Lemma dF_forall vs g rho : dF (FForall vs g) rho <-> (forall rho', agree_off vs rho rho' -> typed_on vs rho' -> dF g rho').
  Proof. exact (iff_refl _). Qed.
  Lemma mem_var_iff v l : mem_var v l = true <-> In v l. Proof. apply mem_var_In. Qed.
  Lemma quant_ev B (A : var -> Prop) bs q dom t0 f s r tr : Forall2 matches bs q -> Forall binder_ok bs -> NoDup (map fst q) ->
    domain_of fpow n q = (Val dom, t0) -> ok t0 -> occF B A f -> (forall v, A v -> ~ B v) -> (forall v, In v (map fst q) -> ~ B v) ->
    mk_quant fpow n (map fst q) dom f s = (Val r, tr) -> ok tr -> Forall kept (d_notes (snd r)) ->
    (exists body, snd r = note (map fst q, dom, body) s) /\
    occF (fun v => B v \/ In v (map fst q)) (fun v => A v /\ ~ In v (map fst q)) (fst r) /\
    forall rho, (forall vals, Forall2 in_sort bs vals -> dF f (setv (map fst q) vals rho)) ->
      dF (fst r) rho /\ (hd (fst r) rho <-> forall vals, Forall2 in_binder bs vals -> hd f (setv (map fst q) vals rho)).
  Proof.
    intros Hm Hok ND Ed O0 Ho HAB HVB E Ht Hk. set (vs := map fst q) in *.
    unfold mk_quant in E. apply bind_val in E. destruct E as (body & t1 & t2 & E1 & E2 & ->). apply ret_val in E2. destruct E2 as [-> ->].
    rewrite app_nil_r in Ht. cbn [fst snd] in *. set (Q := filter (fun v => mem_var v (fvF body)) vs) in *.
    set (tgt := match Q with [] => body | _ :: _ => mk_forall Q (mk_imply dom body) end).
    split; [exists body; auto|]. cbn [note d_notes] in Hk. apply Forall_inv in Hk. cbn [kept] in Hk.
    destruct (elim_bools_ev B vs A f body t1 HAB Ho E1 Ht) as [Ob Sb].
    assert (Hbb : forall v bd, In (v, bd) q -> vty v = BOOLEAN -> is_finite (fst bd) = false /\ is_finite (snd bd) = false).
    { clear - Hm Hok. induction Hm as [|b p bs q [M1 M2] Hm IH]; intros v bd Hin Tb; [destruct Hin|]. inversion Hok; subst. destruct Hin as [->|Hin]; [|apply (IH H2 v bd Hin Tb)].
      cbn [fst snd] in *. subst bd. destruct H1 as (_ & _ & _ & K). apply K. rewrite Tb in M1. destruct (snd (fst b)); auto; discriminate. }
    assert (HbV : forall v, In v vs -> exists bd, In (v, bd) q) by (intros v Hv; apply in_map_iff in Hv; destruct Hv as ([v' bd] & <- & X); exists bd; auto).
    assert (InQ : forall v, In v Q <-> In v vs /\ In v (fvF body)) by (intros v; unfold Q; rewrite filter_In, mem_var_iff; apply iff_refl).
    destruct (domain_of_ev (fun v => B v \/ In v vs) (fun v => In v vs) q dom t0 Ed O0 Hbb (fun v H => H)) as [Od Sd].
    assert (Fd : forall v, In v (fvF dom) -> In v vs) by (intros v Hv; apply (proj2 (occ_fv _) dom _ Od v Hv)).
    assert (Fb : forall v, In v (fvF body) -> A v /\ ~ In v (bools vs)) by (intros v Hv; apply (proj2 (occ_fv B) body _ Ob v Hv)).
    assert (QA : forall v, In v (fvF body) -> ~ In v Q -> ~ In v vs) by (intros v H1 H2 H3; apply H2, InQ; auto).
    assert (Ob' : occF (fun v => B v \/ In v vs) (fun v => (A v /\ ~ In v vs) \/ In v Q) body).
    { apply (proj2 (occ_bound B _ (fun v H => or_introl H))). apply (proj2 (occ_on B) body _ _ Ob). intros v Hv. destruct (in_dec var_eq_dec v Q) as [X|X]; auto. left. split; [apply Fb; auto|apply QA; auto]. }
    assert (DQ : Q <> [] -> forall v, In v (fvF dom) -> In v Q).
    { intros N v Hv. destruct Hk as [Hk|Hk]; [|apply InQ; split; auto]. exfalso.
      assert (X : exists w, In w Q) by (clear - N; clearbody Q; destruct Q as [|w Q']; [congruence|exists w; left; auto]).
      destruct X as (w & X). apply InQ in X. destruct X as [X1 X2]. apply (Hk w X1 X2). }
    (* a point that satisfies the bounds *)
    destruct (binders_inhabited bs Hok) as (v0 & Hv0).
    set (mixin := fun (rho' rho : env) (w : var) => if in_dec var_eq_dec w Q then rho' w else if in_dec var_eq_dec w vs then setv vs v0 rho w else rho w).
    assert (mix_body : forall rho rho', agree_off Q rho rho' -> forall v, In v (fvF body) -> rho' v = mixin rho' rho v).
    { intros rho rho' X v Hv. unfold mixin. destruct (in_dec var_eq_dec v Q); auto. destruct (in_dec var_eq_dec v vs) as [Y|Y]; [destruct (QA v Hv n0 Y)|apply X; auto]. }
    assert (mix_typed : forall rho rho', typed_on Q rho' -> typed_on vs (mixin rho' rho)).
    { intros rho rho' X v Hv. unfold mixin. destruct (in_dec var_eq_dec v Q) as [Y|Y]; [apply X; auto|]. destruct (in_dec var_eq_dec v vs); [|contradiction].
      apply (setv_typed bs q v0 rho Hm (in_binder_sort _ _ Hv0) v Hv). }
    assert (mix_off : forall rho rho', agree_off vs rho (mixin rho' rho)).
    { intros rho rho' v Hv. unfold mixin. destruct (in_dec var_eq_dec v Q) as [X|X]; [apply InQ in X; destruct X; contradiction|]. destruct (in_dec var_eq_dec v vs); [contradiction|auto]. }
    assert (mix_bnd : forall rho rho', (forall v bd, In (v, bd) q -> In v Q -> bndR bd (rho' v)) -> forall v bd, In (v, bd) q -> bndR bd (mixin rho' rho v)).
    { intros rho rho' X v bd Hv. unfold mixin. destruct (in_dec var_eq_dec v Q) as [Y|Y]; [apply X; auto|].
      destruct (in_dec var_eq_dec v vs) as [Z|Z]; [apply (setv_bnd bs q v0 rho Hm Hok ND Hv0 v bd Hv)|]. destruct Z. apply (in_map fst q (v, bd) Hv). }
    (* every typed point off vs is a choice of values *)
    assert (pt : forall rho r1, agree_off vs rho r1 -> typed_on vs r1 -> forall w, setv vs (map (fun v => varval v r1) vs) rho w = r1 w).
    { intros rho r1 X Y w. rewrite (setv_varval vs r1 rho w Y). destruct (in_dec var_eq_dec w vs) as [Z|Z]; auto. symmetry. apply X; auto. }
    assert (off_b : forall rho r1 r2, agree_off vs rho r1 -> agree_off (bools vs) r1 r2 -> agree_off vs rho r2).
    { intros rho r1 r2 X Y v Hv. rewrite Y by (rewrite in_bools; tauto). apply X; auto. }
    assert (ty_b : forall r1 r2, typed_on vs r1 -> agree_off (bools vs) r1 r2 -> typed_on (bools vs) r2 -> typed_on vs r2).
    { intros r1 r2 X Y Z v Hv. destruct (in_dec var_eq_dec v (bools vs)) as [W|W]; [apply Z; auto|]. rewrite (Y v W). apply X; auto. }
    (* definedness of the body at every typed point *)
    assert (Db : forall rho, (forall vals, Forall2 in_sort bs vals -> dF f (setv vs vals rho)) -> forall r1, agree_off vs rho r1 -> typed_on vs r1 ->
                 forall r2, agree_off (bools vs) r1 r2 -> typed_on (bools vs) r2 -> dF f r2).
    { intros rho D r1 X Y r2 X2 Y2. pose proof (off_b _ _ _ X X2) as X3. pose proof (ty_b _ _ Y X2 Y2) as Y3.
      apply (proj2 (def_agree M stdD) f (setv vs (map (fun v => varval v r2) vs) rho) r2); [intros v _; apply pt; auto|]. apply D. apply varval_in_sort; auto. }
    (* the body, at a typed point that satisfies the bounds *)
    assert (Bd : forall rho, (forall vals, Forall2 in_sort bs vals -> dF f (setv vs vals rho)) -> forall r1, agree_off vs rho r1 -> typed_on vs r1 ->
                 (forall v bd, In (v, bd) q -> bndR bd (r1 v)) -> (forall vals, Forall2 in_binder bs vals -> hd f (setv vs vals rho)) -> hd body r1).
    { intros rho D r1 X Y Bn H. apply (proj2 (Sb r1 (Db rho D r1 X Y))). intros r2 X2 Y2.
      pose proof (off_b _ _ _ X X2) as X3. pose proof (ty_b _ _ Y X2 Y2) as Y3.
      apply (holds_agree M f (setv vs (map (fun v => varval v r2) vs) rho) r2); [intros v _; apply pt; auto|]. apply H. apply varval_in_binder; auto.
      intros v bd Hv. destruct (in_dec var_eq_dec v (bools vs)) as [W|W]; [|rewrite (X2 v W); apply Bn; auto].
      apply in_bools in W. destruct (Hbb v bd Hv (proj2 W)) as [F1 F2]. split; intros Z; congruence. }
    assert (Fin : forall vals rho, (forall vals, Forall2 in_sort bs vals -> dF f (setv vs vals rho)) -> Forall2 in_binder bs vals -> hd body (setv vs vals rho) -> hd f (setv vs vals rho)).
    { intros vals rho D Hv H. set (r1 := setv vs vals rho) in *.
      assert (Y : typed_on vs r1) by (apply (setv_typed bs q vals rho Hm (in_binder_sort _ _ Hv))).
      assert (X : agree_off vs rho r1) by (intros v Hv'; apply setv_out; auto).
      apply (proj1 (proj2 (Sb r1 (Db rho D r1 X Y))) H); [intros v _; auto|]. intros v Hv'. apply Y. apply in_bools in Hv'. apply Hv'. }
    assert (HQ : (Q = [] /\ tgt = body) \/ (Q <> [] /\ tgt = mk_forall Q (mk_imply dom body))).
    { unfold tgt. clearbody Q. destruct Q; [left; auto|right; split; [discriminate|auto]]. }
    clearbody tgt.
    assert (Key : forall rho, (forall vals, Forall2 in_sort bs vals -> dF f (setv vs vals rho)) ->
      dF tgt rho /\ (hd tgt rho <-> forall rho', agree_off Q rho rho' -> typed_on Q rho' -> (forall v bd, In (v, bd) q -> In v Q -> bndR bd (rho' v)) -> hd body rho')).
    { intros rho D.
      assert (DB : forall rho', agree_off Q rho rho' -> typed_on Q rho' -> dF body rho').
      { intros rho' X Y. apply (proj2 (def_agree M stdD) body (mixin rho' rho) rho'); [intros v Hv; symmetry; apply (mix_body rho rho'); auto|].
        apply (Sb (mixin rho' rho)). apply (Db rho D); auto. }
      destruct HQ as [[EQ Et]|[QN Et]].
      - rewrite Et. split; [apply DB; [intros v _; auto|rewrite EQ; intros v []]|]. split.
        + intros H rho' X _ _. apply (holds_agree M body rho rho'); auto. intros v _. symmetry. apply X. rewrite EQ. intros [].
        + intros H. apply H; [intros v _; auto|rewrite EQ; intros v []|rewrite EQ; intros v bd _ []].
      - rewrite Et. split.
        + apply mk_forall_defF. apply dF_forall. intros rho' X Y. unfold mk_imply. apply (c_or _ (closed_def M stdD rho')); [apply (c_not _ (closed_def M stdD rho')); apply Sd|apply DB; auto].
        + rewrite mk_forall_holds, hd_forall. split.
          * intros H rho' X Y Z. specialize (H rho' X Y). apply (proj1 (mk_imply_holds M dom body rho') H).
            apply (holds_agree M dom (mixin rho' rho) rho'); [|apply Sd; apply mix_bnd; auto].
            intros v Hv. unfold mixin. destruct (in_dec var_eq_dec v Q) as [W|W]; auto. destruct W. apply DQ; auto.
          * intros H rho' X Y. apply mk_imply_holds. intros Hd. apply H; auto. intros v bd Hv _. apply (proj1 (proj2 (Sd rho')) Hd v bd Hv). }
    split.
    { destruct HQ as [[EQ Et]|[QN Et]]; rewrite Et; [apply (occF_mono _ body (fun v => (A v /\ ~ In v vs) \/ In v Q)); auto; rewrite EQ; intros v [X|[]]; auto|].
      apply occ_mk_forall; [intros v Hv; right; apply InQ; auto|]. unfold mk_imply. apply occ_mk_or; [apply occ_mk_not|exact Ob'].
      apply (proj2 (occ_on _) dom _ _ Od). intros v Hv. right. apply DQ; auto. }
    intros rho D. destruct (Key rho D) as [K1 K2]. split; [exact K1|]. etransitivity; [exact K2|]. split.
    - intros H vals Hv. apply Fin; auto. set (r1 := setv vs vals rho).
      assert (Y : typed_on vs r1) by (apply (setv_typed bs q vals rho Hm (in_binder_sort _ _ Hv))).
      assert (X : agree_off vs rho r1) by (intros v Hv'; apply setv_out; auto).
      apply (holds_agree M body (fun w => if in_dec var_eq_dec w Q then r1 w else rho w) r1).
      { intros v Hv'. destruct (in_dec var_eq_dec v Q) as [W|W]; auto. symmetry. apply X. apply QA; auto. }
      apply H.
      + intros v Hv'. destruct (in_dec var_eq_dec v Q); [contradiction|auto].
      + intros v Hv'. destruct (in_dec var_eq_dec v Q); [|contradiction]. apply Y. apply InQ; auto.
      + intros v bd Hv' W. destruct (in_dec var_eq_dec v Q); [|contradiction]. apply (setv_bnd bs q vals rho Hm Hok ND Hv v bd Hv').
    - intros H rho' X Y Z. apply (holds_agree M body (mixin rho' rho) rho'); [intros v Hv; symmetry; apply (mix_body rho rho'); auto|].
      apply (Bd rho D); auto.
  Qed.

  (** ** New variables *)
  Lemma Bs_notes s s' : d_notes s' = d_notes s -> forall v, Bs s' v <-> Bs s v.
  Proof. intros H v. unfold Bs. rewrite H. apply iff_refl. Qed.
  Lemma Ps_funs s s' : d_funs s' = d_funs s -> forall v, Ps s' v <-> Ps s v.
  Proof. intros H v. unfold Ps. rewrite H. apply iff_refl. Qed.
  (** A state that has the same functions and at least the same names satisfies the invariant *)
  Lemma SInv_ext s s' : SInv s -> ext s s' -> d_funs s' = d_funs s -> (forall x v, In (x, v) (d_scope s') -> As s' v) ->
    (forall v, Bs s' v -> vid v < alloc (d_next s')) -> SInv s'.
  Proof.
    intros HI EX HF HS HB. pose proof (al_le _ _ (proj1 EX)) as L. split; auto.
    - intros v Hv. apply (Ps_funs s s' HF) in Hv. pose proof (si_p s HI v Hv). lia.
    - intros v Hv X. apply (Ps_funs s s' HF) in Hv. destruct (proj1 (proj2 (proj2 EX)) v X) as [Y|Y]; [apply (si_pb s HI v Hv Y)|]. pose proof (si_p s HI v Hv). lia.
    - intros f fd Hf. rewrite HF in Hf. destruct (si_fun s HI f fd Hf) as [N O]. split; auto.
      apply (occT_mono (Bs s) (Bs s') (fun v => As s v \/ In v (fd_params fd))); auto; [apply EX|]. intros v [X|X]; auto. left. apply (ext_As s s'); auto.
  Qed.
  Lemma step_reg s s' x so v : v = mkVar (alloc (d_next s)) (sort_type so) -> d_scope s' = (x, v) :: d_scope s -> d_funs s' = d_funs s ->
    d_notes s' = d_notes s -> d_next s' = S (d_next s) -> SInv s ->
    SInv s' /\ ext s s' /\ As s' v /\ forall E rho w, RelS s E rho -> kind_ok v w -> rho v = enc w -> RelS s' (bindv x w E) rho.
  Proof.
    intros Hv Hs Hf Hn Hx HI.
    assert (EX : ext s s').
    { split; [lia|]. split; [intros w; apply (Bs_notes s s' Hn)|]. split; [intros w X; left; apply (Bs_notes s s' Hn); auto|]. intros w X; left; apply (Ps_funs s s' Hf); auto. }
    assert (AL : alloc (d_next s) < alloc (d_next s')) by (apply Hal; lia).
    assert (Av : As s' v).
    { assert (Iv : vid v = alloc (d_next s)) by (rewrite Hv; reflexivity).
      repeat split; [lia| |]; intros X; [apply (Bs_notes s s' Hn) in X; pose proof (si_b s HI v X)|apply (Ps_funs s s' Hf) in X; pose proof (si_p s HI v X)]; lia. }
    assert (HI' : SInv s').
    { apply (SInv_ext s s'); auto.
      - intros y w X. rewrite Hs in X. destruct X as [X|X]; [injection X as <- <-; auto|]. apply (ext_As s s'); auto. apply (si_scope s HI y w X).
      - intros w X. apply (Bs_notes s s' Hn) in X. pose proof (si_b s HI w X). lia. }
    split; [|split; [|split]]; auto.
    intros E rho w HR K Er y z Hy. rewrite Hs in Hy. cbn [assoc] in Hy. unfold bindv. destruct (Nat.eqb y x); [injection Hy as <-; symmetry; apply varval_enc; auto|].
    apply HR; auto.
  Qed.
  Lemma upd1_same p x rho : upd1 p x rho p = enc x.
  Proof. unfold upd1. rewrite (proj2 (var_eqb_eq p p) eq_refl). reflexivity. Qed.
  Lemma upd1_other p x rho w : w <> p -> upd1 p x rho w = rho w.
  Proof. intros N. unfold upd1. destruct (var_eqb w p) eqn:E; auto. apply var_eqb_eq in E. congruence. Qed.

  Lemma f2_cons {X Y} (P : X -> Y -> Prop) a b l l' : Forall2 P (a :: l) (b :: l') -> P a b /\ Forall2 P l l'.
  Proof. intros H. inversion H; subst. auto. Qed.
  Lemma f2_imp {X Y} (P P' : X -> Y -> Prop) l l' : (forall a b, In a l -> P a b -> P' a b) -> Forall2 P l l' -> Forall2 P' l l'.
  Proof. intros H K. induction K as [|a b l l' Hab K IH]; constructor; [apply H; auto; left; auto|apply IH; intros x y Hx; apply H; right; auto]. Qed.

  Definition freshvs (s s1 : drv) (vs : list var) : Prop :=
    NoDup vs /\ (forall v, In v vs -> alloc (d_next s) <= vid v < alloc (d_next s1)) /\ ext s s1 /\ d_funs s1 = d_funs s /\ d_notes s1 = d_notes s /\
    asserts (d_ops s1) = asserts (d_ops s) /\ SInv s1 /\ (forall v, In v vs -> As s1 v).
  Lemma freshvs_nil s : SInv s -> freshvs s s [].
  Proof. intros HI. split; [constructor|]. split; [intros v []|]. split; [apply ext_refl|]. repeat (split; [auto; fail|]). intros v []. Qed.
  Lemma freshvs_cons s s' s1 v vs : alloc (d_next s) = vid v -> d_next s' = S (d_next s) -> ext s s' -> d_funs s' = d_funs s -> d_notes s' = d_notes s ->
    asserts (d_ops s') = asserts (d_ops s) -> As s' v -> freshvs s' s1 vs -> freshvs s s1 (v :: vs).
  Proof.
    intros Iv Nx EX Hf Hn Ha Av (K1 & K2 & K3 & K4 & K5 & K6 & K7 & K8).
    pose proof (al_le _ _ (proj1 K3)) as L. assert (AL : alloc (d_next s) < alloc (d_next s')) by (apply Hal; lia).
    split; [constructor; auto; intros X; apply K2 in X; lia|]. split; [intros w [<-|X]; [lia|apply K2 in X; lia]|].
    split; [eapply ext_trans; eauto|]. split; [congruence|]. split; [congruence|]. split; [congruence|]. split; auto.
    intros w [<-|X]; auto. apply (ext_As s' s1); auto.
  Qed.
  Lemma setv_upd v w vs ws rho u : ~ In v vs -> length ws = length vs -> setv vs ws (upd1 v w rho) u = setv (v :: vs) (w :: ws) rho u.
  Proof.
    intros N L. cbn [setv]. destruct (var_eqb u v) eqn:E.
    - apply var_eqb_eq in E. subst u. rewrite setv_out by auto. apply upd1_same.
    - apply setv_agree; auto. intros _. apply upd1_other. intros ->. rewrite (proj2 (var_eqb_eq v v) eq_refl) in E. discriminate.
  Qed.
  Lemma upd1_rel s E rho v w : SInv s -> vid v >= alloc (d_next s) -> RelS s E rho -> RelS s E (upd1 v w rho).
  Proof. intros HI N. apply RelS_agree; auto. intros u (Hu & _). symmetry. apply upd1_other. intros ->. lia. Qed.

  Lemma reg_binders_ok bs : forall s q s1, SInv s -> reg_binders alloc bs s = (q, s1) ->
    Forall2 matches bs q /\ freshvs s s1 (map fst q) /\
    forall E rho vals, RelS s E rho -> Forall2 in_sort bs vals -> RelS s1 (bindl (map (fun b => fst (fst b)) bs) vals E) (setv (map fst q) vals rho).
  Proof.
    induction bs as [|[[x so] bd] bs IH]; intros s q s1 HI E; cbn [reg_binders] in E.
    - injection E as <- <-. split; [constructor|]. split; [apply freshvs_nil; auto|]. intros E rho vals H X. inversion X; subst. exact H.
    - destruct (register alloc x so s) as [v s'] eqn:Er. destruct (reg_binders alloc bs s') as [q0 s2] eqn:Eb. injection E as <- <-.
      assert (Hv : v = mkVar (alloc (d_next s)) (sort_type so)) by (unfold register in Er; injection Er as E1 E2; auto).
      assert (Hs : s' = mkDrv ((x, v) :: d_scope s) (d_funs s) (S (d_next s)) (ONew v :: d_ops s) (d_notes s)) by (unfold register in Er; injection Er as E1 E2; rewrite <- E1, <- E2; auto).
      assert (G1 : d_scope s' = (x, v) :: d_scope s) by (rewrite Hs; auto). assert (G2 : d_funs s' = d_funs s) by (rewrite Hs; auto).
      assert (G3 : d_notes s' = d_notes s) by (rewrite Hs; auto). assert (G4 : d_next s' = S (d_next s)) by (rewrite Hs; auto).
      assert (G5 : asserts (d_ops s') = asserts (d_ops s)) by (rewrite Hs; auto).
      destruct (step_reg s s' x so v Hv G1 G2 G3 G4 HI) as (HI' & EX & Av & R1).
      destruct (IH s' q0 s2 HI' Eb) as (M1 & F1 & R2).
      assert (Iv : alloc (d_next s) = vid v) by (rewrite Hv; auto).
      split; [constructor; auto; split; [rewrite Hv; auto|auto]|]. split; [apply (freshvs_cons s s' s2 v); auto|].
      intros E rho vals HR HV. destruct vals as [|w vals]; [inversion HV|]. destruct (f2_cons _ _ _ _ _ HV) as [Hw Hr]. cbn [map fst].
      assert (Kw : kind_ok v w) by (apply (of_sort_typed v so); [rewrite Hv; auto|exact Hw]).
      assert (HR' : RelS s' (bindv x w E) (upd1 v w rho)) by (apply R1; auto; [apply upd1_rel; auto; lia|apply upd1_same]).
      specialize (R2 _ _ vals HR' Hr). apply (RelS_ext s2 _ (setv (map fst q0) vals (upd1 v w rho))); auto.
      intros u. apply setv_upd. destruct F1 as (_ & F2 & _). intros X. apply F2 in X. pose proof (Hal (d_next s) (d_next s') ltac:(lia)). lia.
      rewrite map_length. clear - M1 Hr. revert q0 M1. induction Hr as [|b w bs vals Hb Hr IH]; intros q0 M1; inversion M1; subst; cbn [length]; auto.
  Qed.
  Lemma reg_params_ok ps : forall s vs s1, SInv s -> reg_params alloc ps s = (vs, s1) ->
    freshvs s s1 vs /\ map vty vs = map (fun p => sort_type (snd p)) ps /\
    forall E rho vals, RelS s E rho -> Forall2 kind_ok vs vals -> RelS s1 (bindl (map fst ps) vals E) (setv vs vals rho).
  Proof.
    induction ps as [|[x so] ps IH]; intros s q s1 HI E; cbn [reg_params] in E.
    - injection E as <- <-. split; [apply freshvs_nil; auto|]. split; [reflexivity|]. intros E rho vals H X. inversion X; subst. exact H.
    - destruct (declare_local alloc x so s) as [v s'] eqn:Er. destruct (reg_params alloc ps s') as [q0 s2] eqn:Eb. injection E as <- <-.
      unfold declare_local, register in Er.
      assert (Hv : v = mkVar (alloc (d_next s)) (sort_type so)) by (injection Er as E1 E2; auto).
      assert (Hs : s' = mkDrv ((x, v) :: d_scope s) (d_funs s) (S (d_next s)) (ODeclare v false :: ONew v :: d_ops s) (d_notes s)) by (injection Er as E1 E2; rewrite <- E1, <- E2; auto).
      assert (G1 : d_scope s' = (x, v) :: d_scope s) by (rewrite Hs; auto). assert (G2 : d_funs s' = d_funs s) by (rewrite Hs; auto).
      assert (G3 : d_notes s' = d_notes s) by (rewrite Hs; auto). assert (G4 : d_next s' = S (d_next s)) by (rewrite Hs; auto).
      assert (G5 : asserts (d_ops s') = asserts (d_ops s)) by (rewrite Hs; auto).
      destruct (step_reg s s' x so v Hv G1 G2 G3 G4 HI) as (HI' & EX & Av & R1).
      destruct (IH s' q0 s2 HI' Eb) as (F1 & T1 & R2).
      assert (Iv : alloc (d_next s) = vid v) by (rewrite Hv; auto).
      split; [apply (freshvs_cons s s' s2 v); auto|]. split; [cbn [map fst snd]; rewrite T1, Hv; auto|].
      intros E rho vals HR HV. destruct vals as [|w vals]; [inversion HV|]. destruct (f2_cons _ _ _ _ _ HV) as [Kw Hr]. cbn [map fst].
      assert (HR' : RelS s' (bindv x w E) (upd1 v w rho)) by (apply R1; auto; [apply upd1_rel; auto; lia|apply upd1_same]).
      specialize (R2 _ _ vals HR' Hr). apply (RelS_ext s2 _ (setv q0 vals (upd1 v w rho))); auto.
      intros u. apply setv_upd; [|apply kinds_length; auto]. destruct F1 as (_ & F2 & _). intros X. apply F2 in X. pose proof (Hal (d_next s) (d_next s') ltac:(lia)). lia.
  Qed.

  (** ** let *)
  Lemma bind_one s x so v s' g t : v = mkVar (alloc (d_next s)) (sort_type so) -> so = SoBool \/ so = SoReal ->
    s' = mkDrv ((x, v) :: d_scope s) (d_funs s) (S (d_next s)) (OAssert g :: ODeclare v false :: ONew v :: d_ops s) (d_notes s) ->
    SInv s -> occT (Bs s) (As s) t -> occF (Bs s') (As s') g ->
    (forall rho, tdf t rho -> dF g rho /\ (hd g rho <-> varval v rho = tval t rho)) -> kind_ok v (tval t (fun _ => 0%R)) ->
    strct s s' [g] /\ forall FN FD E w, sem s s' [g] FN FD E (bindv x w E) (fun rho => tval t rho = w /\ tdf t rho) (fun _ => True).
  Proof.
    intros Hv Hso Hs HI Ho Hg Hsem Hk.
    assert (G1 : d_scope s' = (x, v) :: d_scope s) by (rewrite Hs; auto). assert (G2 : d_funs s' = d_funs s) by (rewrite Hs; auto).
    assert (G3 : d_notes s' = d_notes s) by (rewrite Hs; auto). assert (G4 : d_next s' = S (d_next s)) by (rewrite Hs; auto).
    destruct (step_reg s s' x so v Hv G1 G2 G3 G4 HI) as (HI' & EX & Av & R1).
    assert (K : forall rho, kind_ok v (tval t rho)) by (intros rho; unfold kind_ok in *; destruct t; cbn [tval] in *; auto).
    split. { split; auto. split; auto. split; auto. split; [rewrite Hs; auto|]. intros f [<-|[]]; auto. }
    intros FN FD E w rho HR HF [Hw Dt].
    split.
    - intros Hc. split; auto. specialize (Hc g (or_introl eq_refl)). apply (Hsem rho Dt) in Hc.
      intros y z Hy. rewrite G1 in Hy. cbn [assoc] in Hy. unfold bindv. destruct (Nat.eqb y x); [injection Hy as <-; congruence|]. apply HR; auto.
    - exists (upd1 v (tval t rho) rho).
      assert (Fr : forall u, As s u -> rho u = upd1 v (tval t rho) rho u).
      { intros u (Hu & _). symmetry. apply upd1_other. intros ->. rewrite Hv in Hu. cbn [vid] in Hu. lia. }
      split; [|split].
      + intros u Hu. apply upd1_other. intros ->. rewrite Hv in Hu. cbn [vid vty] in Hu. destruct Hu as [Hu|[Hu|Hu]]; [lia| |]; destruct Hso as [-> | ->]; discriminate.
      + intros u Hu. destruct (var_eq_dec u v) as [->|N]; [|rewrite upd1_other; auto]. rewrite upd1_same. specialize (K rho). unfold kind_ok in K. rewrite Hv in *. cbn [vty] in *.
        destruct Hso as [-> | ->]; cbn [sort_type typed_val]; auto. cbn [sort_type] in K. destruct (tval t rho) as [|[|]]; cbn [enc]; auto; tauto.
      + intros f [<-|[]]. assert (D' : tdf t (upd1 v (tval t rho) rho)) by (apply (tdf_agree (Bs s) (As s) t rho); auto).
        destruct (Hsem _ D') as [D1 H1]. split; auto. apply H1. rewrite <- (tval_agree (Bs s) (As s) t rho _ Ho Fr). apply varval_enc; auto. apply upd1_same.
  Qed.
  Lemma bind_lets_notes bs : forall s s1 tr, bind_lets fpow n alloc bs s = (Val s1, tr) -> d_notes s1 = d_notes s.
  Proof.
    induction bs as [|[x [e|f]] bs IH]; intros s s1 tr E; cbn [bind_lets] in E.
    - apply ret_val in E. destruct E as [-> _]. auto.
    - unfold declare_local, register in E. apply bind_val in E. destruct E as (g & t1 & t2 & E1 & E2 & ->). apply IH in E2. exact E2.
    - unfold declare_local, register in E. apply IH in E. exact E.
  Qed.
  Lemma bind_lets_ok bs : forall s s1 tr, SInv s -> Forall (fun p => occT (Bs s) (As s) (snd p)) bs -> bind_lets fpow n alloc bs s = (Val s1, tr) -> ok tr ->
    exists cs, strct s s1 cs /\ forall FN FD E ws, length ws = length bs ->
      sem s s1 cs FN FD E (bindl (map fst bs) ws E) (fun rho => Forall2 (fun p w => tval (snd p) rho = w /\ tdf (snd p) rho) bs ws) (fun _ => True).
  Proof.
    assert (G : forall x t bs s s' s1 g, SInv s -> Forall (fun p => occT (Bs s) (As s) (snd p)) ((x, t) :: bs) -> strct s s' [g] ->
      (forall FN FD E w, sem s s' [g] FN FD E (bindv x w E) (fun rho => tval t rho = w /\ tdf t rho) (fun _ => True)) ->
      (exists cs, strct s' s1 cs /\ forall FN FD E ws, length ws = length bs ->
        sem s' s1 cs FN FD E (bindl (map fst bs) ws E) (fun rho => Forall2 (fun p w => tval (snd p) rho = w /\ tdf (snd p) rho) bs ws) (fun _ => True)) ->
      exists cs, strct s s1 cs /\ forall FN FD E ws, length ws = length ((x, t) :: bs) ->
        sem s s1 cs FN FD E (bindl (map fst ((x, t) :: bs)) ws E) (fun rho => Forall2 (fun p w => tval (snd p) rho = w /\ tdf (snd p) rho) ((x, t) :: bs) ws) (fun _ => True)).
    { intros x t bs0 s s' s1 g HI Ho S1 M1 (cs & S2 & M2). exists (cs ++ [g]). split; [apply (strct_seq s s'); auto|].
      intros FN FD E ws L. destruct ws as [|w ws]; [discriminate|].
      assert (L' : length ws = length bs0) by (cbn in L; lia).
      set (p := fun rho : env => Forall2 (fun p w => tval (snd p) rho = w /\ tdf (snd p) rho) ((x, t) :: bs0) (w :: ws)).
      assert (St : forall rho rho', upto s rho rho' -> p rho -> p rho').
      { intros rho rho' U. apply f2_imp. intros a b Ha [K1 K2]. rewrite Forall_forall in Ho. specialize (Ho a Ha).
        assert (Ag : forall v, As s v -> rho v = rho' v) by (intros v Hv; apply (upto_As s); auto).
        split; [rewrite <- K1; symmetry; apply (tval_agree (Bs s) (As s)); auto|apply (tdf_agree (Bs s) (As s) _ rho); auto]. }
      assert (P1 : forall rho, p rho -> tval t rho = w /\ tdf t rho) by (intros rho H; apply (f2_cons _ _ _ _ _ H)).
      assert (P2 : forall rho, p rho -> True -> Forall2 (fun p w => tval (snd p) rho = w /\ tdf (snd p) rho) bs0 ws) by (intros rho H _; apply (f2_cons _ _ _ _ _ H)).
      pose proof (sem_seq s s' s1 [g] cs FN FD E _ _ p _ _ _ _ HI S1 S2 (M1 FN FD E w) (M2 FN FD (bindv x w E) ws L') St P1 P2) as H.
      apply (sem_weaken _ _ _ _ _ _ _ _ _ _ _ H); auto. }
    induction bs as [|[x t] bs IH]; intros s s1 tr HI Ho E Ht; cbn [bind_lets] in E.
    - apply ret_val in E. destruct E as [-> ->]. exists []. split; [apply strct_refl; auto|]. intros FN FD E ws L. destruct ws; [|discriminate].
      apply sem_refl; auto.
    - pose proof (Forall_inv Ho) as Ho1. pose proof (Forall_inv_tail Ho) as Ho2. cbn [snd] in Ho1.
      assert (Nx : forall s', ext s s' -> Forall (fun p => occT (Bs s') (As s') (snd p)) bs).
      { intros s' EX. eapply Forall_impl; [|exact Ho2]. intros p Hp. apply (ext_occT s s'); auto. }
      destruct t as [e|f].
      + unfold declare_local, register in E. apply bind_val in E. destruct E as (g & t1 & t2 & E1 & E2 & ->). apply Forall_app in Ht. destruct Ht as [O1 O2].
        set (v := mkVar (alloc (d_next s)) (sort_type SoReal)) in *. unfold assert_f, emit in E2. cbn [d_scope d_funs d_next d_ops d_notes] in E2.
        set (s' := mkDrv ((x, v) :: d_scope s) (d_funs s) (S (d_next s)) (OAssert g :: ODeclare v false :: ONew v :: d_ops s) (d_notes s)) in *.
        destruct (step_reg s s' x SoReal v eq_refl eq_refl eq_refl eq_refl eq_refl HI) as (HI' & EX & Av & _).
        destruct (bind_one s x SoReal v s' g (TmE e) eq_refl (or_intror eq_refl) eq_refl HI Ho1) as [S1 M1].
        * assert (Tv : vty v <> BOOLEAN) by discriminate.
          exact (occ_relm M fpow n (Bs s') (As s') REq (EVar v) e (conj Av Tv) (ext_occT s s' (TmE e) EX Ho1) g t1 E1 O1).
        * intros rho De. destruct (mk_relm_ev uf rc fpow n REq (EVar v) e rho g t1 E1 O1 I De) as [D1 V1]. split; auto. rewrite V1. cbn [relR evalE tval]. unfold varval. cbn [v vty sort_type].
          split; [intros <-; auto|intros H; injection H; auto].
        * exact I.
        * apply (G x (TmE e) bs s s' s1 g); auto. apply (IH s' s1 t2); auto.
      + unfold declare_local, register in E.
        set (v := mkVar (alloc (d_next s)) (sort_type SoBool)) in *. set (g := mk_or (mk_and (FVar v) f) (mk_and (mk_not (FVar v)) (mk_not f))) in *.
        unfold assert_f, emit in E. cbn [d_scope d_funs d_next d_ops d_notes] in E.
        set (s' := mkDrv ((x, v) :: d_scope s) (d_funs s) (S (d_next s)) (OAssert g :: ODeclare v false :: ONew v :: d_ops s) (d_notes s)) in *.
        destruct (step_reg s s' x SoBool v eq_refl eq_refl eq_refl eq_refl eq_refl HI) as (HI' & EX & Av & _).
        assert (Ov : occF (Bs s') (As s') (FVar v)) by exact (conj Av eq_refl).
        pose proof (ext_occF s s' f EX Ho1) as Of.
        destruct (bind_one s x SoBool v s' g (TmF f) eq_refl (or_introl eq_refl) eq_refl HI Ho1) as [S1 M1].
        * unfold g. apply occ_mk_or; apply occ_mk_and; rewrite ?occ_mk_not; auto.
        * intros rho De. split.
          -- unfold g. apply (c_or _ (closed_def M stdD rho)); apply (c_and _ (closed_def M stdD rho)); rewrite ?(c_not _ (closed_def M stdD rho)); auto; exact I.
          -- unfold g. rewrite mk_or_holds, !mk_and_holds, !mk_not_holds. unfold varval. cbn [v vty sort_type tval]. fold v. change (hd (FVar v) rho) with (rho v = 1%R).
             split; [intros H; f_equal; apply decide_iff; tauto|]. intros H. injection H as H. destruct (excluded_middle_informative (rho v = 1%R)) as [X|X].
             ++ left. split; auto. apply decide_true. rewrite <- H. apply decide_true. auto.
             ++ right. split; auto. apply decide_false. rewrite <- H. apply decide_false. auto.
        * exact I.
        * apply (G x (TmF f) bs s s' s1 g); auto. apply (IH s' s1 tr); auto.
  Qed.

  (** ** Terms: the history of quantifiers only grows *)
  Definition PN (t : sterm) : Prop := forall s r tr, elab fpow n alloc t s = (Val r, tr) -> exists l, d_notes (snd r) = l ++ d_notes s.
  Ltac ub H :=
    repeat match type of H with
    | bind _ _ = (Val _, _) =>
        let a := fresh "a" in let t1 := fresh "t" in let t2 := fresh "t" in
        let H1 := fresh "H" in
        apply bind_val in H; destruct H as (a & t1 & t2 & H1 & H & ->)
    end;
    try match type of H with
    | ret _ = (Val _, _) => apply ret_val in H; destruct H as [-> ->]
    end.
  Lemma notes_trans s s1 s2 : (exists l, d_notes s1 = l ++ d_notes s) -> (exists l, d_notes s2 = l ++ d_notes s1) -> exists l, d_notes s2 = l ++ d_notes s.
  Proof. intros (l & H) (l' & H'). exists (l' ++ l). rewrite H', H, app_assoc. auto. Qed.
  Lemma notes_refl s s1 : d_notes s1 = d_notes s -> exists l, d_notes s1 = l ++ d_notes s.
  Proof. intros H. exists []. auto. Qed.
  Lemma elabs_notes l : Forall PN l -> forall s r tr, elabs (elab fpow n alloc) l s = (Val r, tr) -> exists k, d_notes (snd r) = k ++ d_notes s.
  Proof.
    induction 1 as [|a l Ha Hl IH]; intros s r tr E; cbn [elabs] in E; ub E.
    - exists []. auto.
    - cbn [snd]. eapply notes_trans; [eapply Ha; eauto|eapply IH; eauto].
  Qed.
  Lemma elab_binds_elabs el l : forall s r tr, elab_binds el l s = (Val r, tr) ->
    elabs el (map snd l) s = (Val (map snd (fst r), snd r), tr) /\ map fst (fst r) = map fst l.
  Proof.
    induction l as [|[x a] l IH]; intros s r tr E; cbn [elab_binds map fst snd elabs] in *.
    - apply ret_val in E. destruct E as [-> ->]. auto.
    - apply bind_val in E. destruct E as (p & t1 & t2 & E1 & E2 & ->). apply bind_val in E2. destruct E2 as (q & t3 & t4 & E2 & E3 & ->).
      apply ret_val in E3. destruct E3 as [-> ->]. destruct (IH _ _ _ E2) as [H1 H2]. rewrite E1. unfold bind. cbn [fst snd map]. rewrite H1. cbn [ret fst snd]. split; auto. f_equal; auto.
  Qed.
  Lemma reg_binders_notes bs : forall s q s1, reg_binders alloc bs s = (q, s1) -> d_notes s1 = d_notes s.
  Proof.
    induction bs as [|[[x so] bd] bs IH]; intros s q s1 E; cbn [reg_binders] in E; [injection E as _ <-; auto|].
    destruct (register alloc x so s) as [v s'] eqn:Er. destruct (reg_binders alloc bs s') as [q0 s2] eqn:Eb. injection E as _ <-.
    rewrite (IH _ _ _ Eb). unfold register in Er. injection Er as _ <-. auto.
  Qed.

  Section Ind.
    Variable P : sterm -> Prop.
    Hypothesis HT : P STrue. Hypothesis HF : P SFalse. Hypothesis HS : forall x, P (SSym x). Hypothesis HN : forall d, P (SNum d).
    Hypothesis HD : forall a b c, P (SDec a b c). Hypothesis HE : forall a b, P a -> P b -> P (SEq a b).
    Hypothesis HR : forall o a b, P a -> P b -> P (SRel o a b). Hypothesis HA : forall l, Forall P l -> P (SAnd l).
    Hypothesis HO : forall l, Forall P l -> P (SOr l). Hypothesis HX : forall l, Forall P l -> P (SXor l).
    Hypothesis HNt : forall a, P a -> P (SNot a). Hypothesis HI : forall a b, P a -> P b -> P (SImp a b).
    Hypothesis HIt : forall c a b, P c -> P a -> P b -> P (SIte c a b). Hypothesis HFa : forall bs a, P a -> P (SForall bs a).
    Hypothesis HL : forall bs a, Forall P (map snd bs) -> P a -> P (SLet bs a). Hypothesis HNg : forall a, P a -> P (SNeg a).
    Hypothesis HAr : forall o a l, P a -> Forall P l -> P (SAri o a l). Hypothesis HF1 : forall o a, P a -> P (SFun o a).
    Hypothesis HF2 : forall o a b, P a -> P b -> P (SFun2 o a b). Hypothesis HAp : forall f l, Forall P l -> P (SApp f l).
    Fixpoint sterm_ind2 (t : sterm) : P t :=
      let lst := fix lst (l : list sterm) : Forall P l := match l with [] => Forall_nil _ | a :: r => Forall_cons a (sterm_ind2 a) (lst r) end in
      match t with
      | STrue => HT | SFalse => HF | SSym x => HS x | SNum d => HN d | SDec a b c => HD a b c
      | SEq a b => HE a b (sterm_ind2 a) (sterm_ind2 b) | SRel o a b => HR o a b (sterm_ind2 a) (sterm_ind2 b)
      | SAnd l => HA l (lst l) | SOr l => HO l (lst l) | SXor l => HX l (lst l)
      | SNot a => HNt a (sterm_ind2 a) | SImp a b => HI a b (sterm_ind2 a) (sterm_ind2 b)
      | SIte c a b => HIt c a b (sterm_ind2 c) (sterm_ind2 a) (sterm_ind2 b)
      | SForall bs a => HFa bs a (sterm_ind2 a)
      | SLet bs a => HL bs a ((fix lb (l : list (nat * sterm)) : Forall P (map snd l) :=
                                match l with [] => Forall_nil _ | (x, a) :: r => Forall_cons a (sterm_ind2 a) (lb r) end) bs) (sterm_ind2 a)
      | SNeg a => HNg a (sterm_ind2 a) | SAri o a l => HAr o a l (sterm_ind2 a) (lst l) | SFun o a => HF1 o a (sterm_ind2 a)
      | SFun2 o a b => HF2 o a b (sterm_ind2 a) (sterm_ind2 b) | SApp f l => HAp f l (lst l)
      end.
  End Ind.

  Lemma elab_notes t : PN t.
  Proof.
    induction t using sterm_ind2; intros s r tr E; cbn [elab] in E.
    1, 2: (apply ret_val in E; destruct E as [-> _]; exists []; auto).
    - destruct (assoc x (d_scope s)); [|discriminate]. apply ret_val in E. destruct E as [-> _]. exists []; auto.
    - apply ret_val in E; destruct E as [-> _]; exists []; auto.
    - apply ret_val in E; destruct E as [-> _]; exists []; auto.
    - apply bind_val in E. destruct E as (p & u1 & u2 & E1 & E2 & ->). apply bind_val in E2. destruct E2 as (q & u3 & u4 & E2 & E3 & ->).
      assert (snd r = snd q) as ->.
      { destruct (fst p), (fst q); try discriminate; [apply bind_val in E3; destruct E3 as (g & ? & ? & _ & E3 & _)|]; apply ret_val in E3; destruct E3 as [-> _]; auto. }
      eapply notes_trans; [eapply IHt1; eauto|eapply IHt2; eauto].
    - ub E. cbn [snd]. eapply notes_trans; [eapply IHt1; eauto|eapply IHt2; eauto].
    - ub E. cbn [snd]. eapply elabs_notes; eauto.
    - ub E. cbn [snd]. eapply elabs_notes; eauto.
    - ub E. cbn [snd]. eapply elabs_notes; eauto.
    - ub E. cbn [snd]. eapply IHt; eauto.
    - ub E. cbn [snd]. eapply notes_trans; [eapply IHt1; eauto|eapply IHt2; eauto].
    - apply bind_val in E. destruct E as (p & t1' & t2' & E1 & E2 & ->). apply bind_val in E2. destruct E2 as (q & t3' & t4 & E2 & E3 & ->).
      apply bind_val in E3. destruct E3 as (u & t5 & t6 & E3 & E4 & ->). apply bind_val in E4. destruct E4 as (g & t7 & t8 & E4 & E5 & ->).
      assert (snd r = snd u) as -> by (destruct (fst q), (fst u); try discriminate; apply ret_val in E5; destruct E5 as [-> _]; auto).
      eapply notes_trans; [eapply IHt1; eauto|]. eapply notes_trans; [eapply IHt2; eauto|eapply IHt3; eauto].
    - destruct (reg_binders alloc bs s) as [q s1] eqn:Er. ub E. cbn [snd with_scope d_notes].
      unfold mk_quant in H2. ub H2. cbn [snd note d_notes]. apply (notes_trans s (snd a0) (note (map fst q, a, a3) (snd a0))); [|eexists [_]; reflexivity].
      apply (notes_trans s s1); [apply notes_refl; eapply reg_binders_notes; eauto|eapply IHt; eauto].
    - ub E. cbn [snd with_scope d_notes]. destruct (elab_binds_elabs _ _ _ _ _ H0) as [H3 _].
      eapply notes_trans; [apply (elabs_notes _ H _ _ _ H3)|]. eapply notes_trans; [apply notes_refl; eapply bind_lets_notes; eauto|eapply IHt; eauto].
    - ub E. cbn [snd]. eapply IHt; eauto.
    - apply bind_val in E. destruct E as (p & t1' & t2' & E1 & E2 & ->). apply bind_val in E2. destruct E2 as (q & t3' & t4 & E2 & E3 & ->).
      assert (snd r = snd q) as ->. { destruct (fst q); [apply ret_val in E3; destruct E3 as [-> _]; auto|]. ub E3; auto. }
      eapply notes_trans; [eapply IHt; eauto|eapply elabs_notes; eauto].
    - ub E. cbn [snd]. eapply IHt; eauto.
    - ub E. cbn [snd]. eapply notes_trans; [eapply IHt1; eauto|eapply IHt2; eauto].
    - apply bind_val in E. destruct E as (p & t1' & t2' & E1 & E2 & ->). destruct (assoc f (d_funs (snd p))); [|discriminate]. ub E2. cbn [snd]. eapply elabs_notes; eauto.
  Qed.

  (** ** Terms: value and side constraints *)
  Notation el := (elab fpow n alloc).
  Definition means (FN : fenv) (t : sterm) (E : nenv) (tm : term) (rho : env) : Prop := tval tm rho = den M FN t E /\ tdf tm rho.
  Definition PT (t : sterm) : Prop := forall s tm s' tr, SInv s -> el t s = (Val (tm, s'), tr) -> ok tr -> plain_term t -> Forall kept (d_notes s') ->
    exists cs, strct s s' cs /\ occT (Bs s') (As s') tm /\ (has_let t = false -> cs = []) /\
      forall FN FD E, defd M FN stdD FD t E -> sem s s' cs FN FD E E (fun _ => True) (means FN t E tm).
  Definition PTs (l : list sterm) : Prop := forall s tms s' tr, SInv s -> elabs el l s = (Val (tms, s'), tr) -> ok tr -> Forall plain_term l -> Forall kept (d_notes s') ->
    exists cs, strct s s' cs /\ Forall (occT (Bs s') (As s')) tms /\ (existsb has_let l = false -> cs = []) /\
      forall FN FD E, Forall (fun t => defd M FN stdD FD t E) l -> sem s s' cs FN FD E E (fun _ => True) (fun rho => Forall2 (fun t tm => means FN t E tm rho) l tms).
  Lemma kept_mono s s' : (exists l, d_notes s' = l ++ d_notes s) -> Forall kept (d_notes s') -> Forall kept (d_notes s).
  Proof. intros (l & ->) H. apply Forall_app in H. apply H. Qed.
  (** One after the other *)
  Lemma two_ok s s1 s2 cs1 cs2 FN FD E (Q1 Q2 : env -> Prop) : SInv s -> strct s s1 cs1 -> strct s1 s2 cs2 ->
    sem s s1 cs1 FN FD E E (fun _ => True) Q1 -> sem s1 s2 cs2 FN FD E E (fun _ => True) Q2 -> sem s s2 (cs2 ++ cs1) FN FD E E (fun _ => True) (fun rho => Q1 rho /\ Q2 rho).
  Proof. intros HI S1 S2 M1 M2. apply (sem_seq s s1 s2 cs1 cs2 FN FD E E E _ _ _ _ _ HI S1 S2 M1 M2); auto. Qed.
  Lemma two_terms a b s p s2 q t1 t2 : PT a -> PT b -> SInv s -> el a s = (Val p, t1) -> el b (snd p) = (Val (q, s2), t2) -> ok (t1 ++ t2) ->
    plain_term a -> plain_term b -> Forall kept (d_notes s2) ->
    exists cs, strct s s2 cs /\ occT (Bs s2) (As s2) (fst p) /\ occT (Bs s2) (As s2) q /\ (has_let a || has_let b = false -> cs = []) /\
      forall FN FD E, defd M FN stdD FD a E -> defd M FN stdD FD b E -> sem s s2 cs FN FD E E (fun _ => True) (fun rho => means FN a E (fst p) rho /\ means FN b E q rho).
  Proof.
    intros Ha Hb HI E1 E2 Ht Pa Pb Hk. apply Forall_app in Ht. destruct Ht as [O1 O2]. destruct p as [p s1]. cbn [fst snd] in *.
    assert (Hk1 : Forall kept (d_notes s1)) by (apply (kept_mono s1 s2); auto; apply (elab_notes b s1 (q, s2) t2 E2)).
    destruct (Ha s p s1 t1 HI E1 O1 Pa Hk1) as (cs1 & S1 & Oc1 & N1 & M1).
    assert (HI1 : SInv s1) by apply S1.
    destruct (Hb s1 q s2 t2 HI1 E2 O2 Pb Hk) as (cs2 & S2 & Oc2 & N2 & M2).
    exists (cs2 ++ cs1). split; [apply (strct_seq s s1); auto|]. split; [apply (ext_occT s1 s2); auto; apply S2|]. split; auto.
    split. { intros H. apply orb_false_iff in H. destruct H as [H1 H2]. rewrite N1, N2; auto. }
    intros FN FD E D1 D2. apply (two_ok s s1 s2); auto.
  Qed.
  Lemma elabs_ok l : Forall PT l -> PTs l.
  Proof.
    induction 1 as [|a l Ha Hl IH]; intros s tms s' tr HI E Ht Hp Hk; cbn [elabs] in E.
    - apply ret_val in E. destruct E as [E ->]. injection E as -> ->. exists []. split; [apply strct_refl; auto|]. split; auto. split; auto.
      intros FN FD E _. apply sem_refl. intros. constructor.
    - apply bind_val in E. destruct E as (p & t1 & t2 & E1 & E2 & ->). apply bind_val in E2. destruct E2 as (q & t3 & t4 & E2 & E3 & ->).
      apply ret_val in E3. destruct E3 as [E3 ->]. injection E3 as -> ->. rewrite app_nil_r in Ht. apply Forall_app in Ht. destruct Ht as [O1 O2].
      destruct p as [p s1]. destruct q as [q s2]. cbn [fst snd] in *. pose proof (Forall_inv Hp) as Pa. pose proof (Forall_inv_tail Hp) as Pl.
      assert (Hk1 : Forall kept (d_notes s1)).
      { apply (kept_mono s1 s2); auto. apply (elabs_notes l) with (r := (q, s2)) (tr := t3); auto. apply Forall_forall. intros x _. apply elab_notes. }
      destruct (Ha s p s1 t1 HI E1 O1 Pa Hk1) as (cs1 & S1 & Oc1 & N1 & M1).
      destruct (IH s1 q s2 t3 (proj1 (proj2 (proj2 S1))) E2 O2 Pl Hk) as (cs2 & S2 & Oc2 & N2 & M2).
      exists (cs2 ++ cs1). split; [apply (strct_seq s s1); auto|]. split; [constructor; auto; apply (ext_occT s1 s2); auto; apply S2|].
      split. { cbn [existsb]. intros H. apply orb_false_iff in H. destruct H as [H1 H2]. rewrite N1, N2; auto. }
      intros FN FD E Hd. pose proof (Forall_inv Hd) as Da. pose proof (Forall_inv_tail Hd) as Dl.
      eapply sem_weaken; [apply (two_ok s s1 s2 cs1 cs2 FN FD E _ _ HI S1 S2 (M1 FN FD E Da) (M2 FN FD E Dl))|auto|].
      intros rho _ _ _ [K1 K2]. constructor; auto.
  Qed.
  Lemma fold_plain l : fold_right (fun a acc => plain_term a /\ acc) True l <-> Forall plain_term l.
  Proof. induction l as [|a l IH]; cbn [fold_right]; [split; auto|]. rewrite IH. split; [intros [H1 H2]; constructor; auto|intros H; inversion H; auto]. Qed.
  Lemma fold_defd FN FD E l : fold_right (fun a acc => defd M FN stdD FD a E /\ acc) True l <-> Forall (fun t => defd M FN stdD FD t E) l.
  Proof. induction l as [|a l IH]; cbn [fold_right]; [split; auto|]. rewrite IH. split; [intros [H1 H2]; constructor; auto|intros H; inversion H; auto]. Qed.

  Lemma getE_val t x tr : getE t = (Val x, tr) -> t = TmE x /\ tr = [].
  Proof. destruct t; [|discriminate]. intros H. apply ret_val in H. destruct H as [-> ->]. auto. Qed.
  Lemma getF_val t x tr : getF t = (Val x, tr) -> t = TmF x /\ tr = [].
  Proof. destruct t; [discriminate|]. intros H. apply ret_val in H. destruct H as [-> ->]. auto. Qed.
  Lemma means_E FN t E x rho : means FN t E (TmE x) rho -> den M FN t E = VR (ev x rho) /\ df x rho.
  Proof. intros [H1 H2]. auto. Qed.
  Lemma means_F FN t E f rho : means FN t E (TmF f) rho -> den M FN t E = VB (decide (hd f rho)) /\ dF f rho.
  Proof. intros [H1 H2]. auto. Qed.

  Lemma fold_form_ok (stp : formula -> formula -> formula) (bop : bool -> bool -> bool) :
    (forall B A f g, occF B A f -> occF B A g -> occF B A (stp f g)) ->
    (forall f g rho, dF f rho -> dF g rho -> dF (stp f g) rho) ->
    (forall f g rho, decide (hd (stp f g) rho) = bop (decide (hd f rho)) (decide (hd g rho))) ->
    forall l f g tr, fold_form stp l f = (Val g, tr) ->
    tr = [] /\ (forall B A, occF B A f -> Forall (occT B A) l -> occF B A g) /\
    forall FN E ts rho, Forall2 (fun t tm => means FN t E tm rho) ts l -> dF f rho ->
      dF g rho /\ decide (hd g rho) = fold_left bop (map (fun t => vb (den M FN t E)) ts) (decide (hd f rho)).
  Proof.
    intros So Sd Sv. induction l as [|t l IH]; intros f g tr E; cbn [fold_form] in E.
    - apply ret_val in E. destruct E as [-> ->]. split; auto. split; auto. intros FN E ts rho H D. inversion H; subst. auto.
    - apply bind_val in E. destruct E as (h & t1 & t2 & E1 & E2 & ->). apply getF_val in E1. destruct E1 as [-> ->]. destruct (IH _ _ _ E2) as (-> & Oc & V).
      split; auto. split. { intros B A Of Ol. apply Oc; [apply So; auto; apply (Forall_inv Ol)|apply (Forall_inv_tail Ol)]. }
      intros FN E ts rho H D. destruct ts as [|t ts]; [inversion H|]. destruct (f2_cons _ _ _ _ _ H) as [Mt Ml]. apply means_F in Mt. destruct Mt as [Et Dt].
      destruct (V FN E ts rho Ml (Sd _ _ _ D Dt)) as [D1 V1]. split; auto. rewrite V1. cbn [map fold_left]. rewrite Sv, Et. auto.
  Qed.
  Lemma fold_andb l b : fold_left andb l b = b && forallb (fun x => x) l.
  Proof. revert b. induction l as [|a l IH]; intros b; cbn [fold_left forallb]; [now rewrite andb_true_r|]. rewrite IH, andb_assoc. auto. Qed.
  Lemma fold_orb l b : fold_left orb l b = b || existsb (fun x => x) l.
  Proof. revert b. induction l as [|a l IH]; intros b; cbn [fold_left existsb]; [now rewrite orb_false_r|]. rewrite IH, orb_assoc. auto. Qed.
  Lemma forallb_map {X} (f : X -> bool) l : forallb (fun x => x) (map f l) = forallb f l.
  Proof. induction l; cbn; congruence. Qed.
  Lemma existsb_map {X} (f : X -> bool) l : existsb (fun x => x) (map f l) = existsb f l.
  Proof. induction l; cbn; congruence. Qed.
  Lemma dec_and P Q : decide (P /\ Q) = decide P && decide Q.
  Proof. unfold decide. destruct (excluded_middle_informative (P /\ Q)), (excluded_middle_informative P), (excluded_middle_informative Q); auto; tauto. Qed.
  Lemma dec_or P Q : decide (P \/ Q) = decide P || decide Q.
  Proof. unfold decide. destruct (excluded_middle_informative (P \/ Q)), (excluded_middle_informative P), (excluded_middle_informative Q); auto; tauto. Qed.
  Lemma dec_not P : decide (~ P) = negb (decide P).
  Proof. unfold decide. destruct (excluded_middle_informative (~ P)), (excluded_middle_informative P); auto; tauto. Qed.
  Lemma hdec_and f g rho : decide (hd (mk_and f g) rho) = decide (hd f rho) && decide (hd g rho).
  Proof. rewrite <- dec_and. apply decide_iff. apply mk_and_holds. Qed.
  Lemma hdec_or f g rho : decide (hd (mk_or f g) rho) = decide (hd f rho) || decide (hd g rho).
  Proof. rewrite <- dec_or. apply decide_iff. apply mk_or_holds. Qed.
  Lemma hdec_not f rho : decide (hd (mk_not f) rho) = negb (decide (hd f rho)).
  Proof. rewrite <- dec_not. apply decide_iff. apply mk_not_holds. Qed.
  Lemma d_and f g rho : dF f rho -> dF g rho -> dF (mk_and f g) rho. Proof. apply (c_and _ (closed_def M stdD rho)). Qed.
  Lemma d_or f g rho : dF f rho -> dF g rho -> dF (mk_or f g) rho. Proof. apply (c_or _ (closed_def M stdD rho)). Qed.
  Lemma d_not f rho : dF f rho -> dF (mk_not f) rho. Proof. apply (c_not _ (closed_def M stdD rho)). Qed.
  Lemma o_not B A f : occF B A f -> occF B A (mk_not f). Proof. apply occ_mk_not. Qed.
  Lemma hdec_xor f g rho : decide (hd (xor_step f g) rho) = xorb (decide (hd f rho)) (decide (hd g rho)).
  Proof. unfold xor_step. rewrite hdec_or, !hdec_and, !hdec_not. destruct (decide (hd f rho)), (decide (hd g rho)); auto. Qed.
  Lemma hdec_feq f g rho : decide (hd (mk_feq f g) rho) = Bool.eqb (decide (hd f rho)) (decide (hd g rho)).
  Proof. unfold mk_feq. rewrite hdec_and, !hdec_or, !hdec_not. destruct (decide (hd f rho)), (decide (hd g rho)); auto. Qed.

  Lemma ari_step_occ B A o a b : occE B A a -> occE B A b -> res M (occE B A) (ari_step fpow n o a b).
  Proof. intros Ha Hb. destruct o; cbn [ari_step]; [apply occ_plus|apply occ_minus|apply occ_times|apply occ_div]; auto. Qed.
  Lemma ari_step_ev o a b rho : df a rho -> df b rho -> (o = ADiv -> ev b rho <> 0%R) -> yields M stdD (ari_step fpow n o a b) rho (ariR M o (ev a rho) (ev b rho)).
  Proof. intros Da Db Hz. destruct o; cbn [ari_step ariR]; [apply mk_add_ev|apply mk_sub_ev|apply mk_mul_ev|apply mk_div_ev]; auto. Qed.
  Lemma fold_ari_ok o l : forall e r tr, fold_ari fpow n o l e = (Val r, tr) -> ok tr ->
    (forall B A, occE B A e -> Forall (occT B A) l -> occE B A r) /\
    forall FN E ts rho, Forall2 (fun t tm => means FN t E tm rho) ts l -> Forall (fun t => o = ADiv -> vr (den M FN t E) <> 0%R) ts -> df e rho ->
      df r rho /\ ev r rho = fold_left (ariR M o) (map (fun t => vr (den M FN t E)) ts) (ev e rho).
  Proof.
    induction l as [|t l IH]; intros e r tr E Ht; cbn [fold_ari] in E.
    - apply ret_val in E. destruct E as [-> ->]. split; auto. intros FN E ts rho H _ D. inversion H; subst. auto.
    - apply bind_val in E. destruct E as (x & t1 & t2 & E1 & E2 & ->). apply getE_val in E1. destruct E1 as [-> ->]. apply bind_val in E2. destruct E2 as (e' & t3 & t4 & E2 & E3 & ->).
      cbn [app] in Ht. apply Forall_app in Ht. destruct Ht as [O1 O2]. destruct (IH _ _ _ E3 O2) as (Oc & V).
      split. { intros B A Of Ol. apply Oc; [apply (ari_step_occ B A o e x Of (Forall_inv Ol) e' t3 E2 O1)|apply (Forall_inv_tail Ol)]. }
      intros FN E ts rho H Hz D. destruct ts as [|t ts]; [inversion H|]. destruct (f2_cons _ _ _ _ _ H) as [Mt Ml]. apply means_E in Mt. destruct Mt as [Et Dt].
      pose proof (Forall_inv Hz) as Hz1. cbn beta in Hz1. rewrite Et in Hz1. cbn [vr] in Hz1.
      destruct (ari_step_ev o e x rho D Dt Hz1 e' t3 E2 O1) as [D1 V1].
      destruct (V FN E ts rho Ml (Forall_inv_tail Hz) D1) as [D2 V2]. split; auto. rewrite V2. cbn [map fold_left]. rewrite V1, Et. auto.
  Qed.

  Lemma PT_intro t : (forall s tm s' tr, SInv s -> el t s = (Val (tm, s'), tr) -> ok tr -> plain_term t -> Forall kept (d_notes s') ->
    exists cs (Q : fenv -> nenv -> env -> Prop), strct s s' cs /\ occT (Bs s') (As s') tm /\ (has_let t = false -> cs = []) /\
      (forall FN FD E, defd M FN stdD FD t E -> sem s s' cs FN FD E E (fun _ => True) (Q FN E)) /\
      (forall FN FD E rho, RelS s E rho -> FR s FN FD rho -> defd M FN stdD FD t E -> Q FN E rho -> means FN t E tm rho)) -> PT t.
  Proof.
    intros H s tm s' tr HI E Ht Hp Hk. destruct (H s tm s' tr HI E Ht Hp Hk) as (cs & Q & H1 & H2 & H3 & H4 & H5). exists cs. repeat (split; [assumption|]).
    intros FN FD E0 D. apply (sem_weaken _ _ _ _ _ _ _ _ _ _ _ (H4 FN FD E0 D)); auto. intros rho HR HF _. apply (H5 FN FD E0 rho HR HF D).
  Qed.
  Lemma PT_leaf t : has_let t = false -> (forall s tm s' tr, el t s = (Val (tm, s'), tr) -> SInv s -> s' = s /\ occT (Bs s) (As s) tm /\
    forall FN E rho, RelS s E rho -> means FN t E tm rho) -> PT t.
  Proof.
    intros _ H s tm s' tr HI E Ht Hp Hk. destruct (H s tm s' tr E HI) as (-> & H2 & H3). exists []. split; [apply strct_refl; auto|]. split; auto. split; auto.
    intros FN FD E0 D. apply sem_refl. intros rho HR _ _. apply H3; auto.
  Qed.
  Ltac val E := apply ret_val in E; destruct E as [E ->]; injection E as -> ->.
  Ltac val1 E := apply ret_val in E; destruct E as [E ->]; injection E as ->.

  Lemma PT_forall bs a : PT a -> PT (SForall bs a).
  Proof.
    intros Ha s tm s' tr HI E Ht Hp Hk. cbn [elab] in E. cbn [plain_term] in Hp. destruct Hp as (Pa & Na & Pb).
    destruct (reg_binders alloc bs s) as [q s1] eqn:Er.
    apply bind_val in E. destruct E as (dom & t1 & t2 & E1 & E2 & ->). apply bind_val in E2. destruct E2 as (p & t3 & t4 & E2 & E3 & ->).
    apply bind_val in E3. destruct E3 as (f & t5 & t6 & E3 & E4 & ->). apply bind_val in E4. destruct E4 as (r & t7 & t8 & E4 & E5 & ->).
    apply ret_val in E5. destruct E5 as [E5 ->]. injection E5 as -> ->. apply getF_val in E3. destruct E3 as [Ef ->]. destruct p as [p s2]. cbn [fst snd] in *. subst p.
    rewrite app_nil_r in Ht. cbn [app] in Ht. apply Forall_app in Ht. destruct Ht as [O1 O2]. apply Forall_app in O2. destruct O2 as [O2 O3].
    destruct (reg_binders_ok bs s q s1 HI Er) as (Mt & (ND & Rng & EX1 & F1 & N1 & A1 & HI1 & Av) & RS).
    cbn [with_scope d_notes] in Hk.
    assert (Nt : exists body, snd r = note (map fst q, dom, body) s2).
    { unfold mk_quant in E4. apply bind_val in E4. destruct E4 as (body & ? & ? & _ & E4 & _). apply ret_val in E4. destruct E4 as [-> _]. exists body. auto. }
    assert (Hk2 : Forall kept (d_notes s2)) by (destruct Nt as (body & Nt); rewrite Nt in Hk; apply (Forall_inv_tail Hk)).
    destruct (Ha s1 (TmF f) s2 t3 HI1 E2 O2 Pa Hk2) as (cs & S2 & Oc & Nc & Sm). rewrite (Nc Na) in *. clear Nc cs.
    destruct S2 as (EX2 & F2 & HI2 & A2 & _). cbn [app] in A2.
    set (vs := map fst q) in *.
    assert (VA : forall v, In v vs -> As s2 v) by (intros v Hv; apply (ext_As s1 s2); auto).
    destruct (quant_ev (Bs s2) (As s2) bs q dom t1 f s2 r t7 Mt Pb ND E1 O1 Oc) as (_ & Or & Vr); auto.
    { intros v Hv. apply Hv. } { intros v Hv. apply (VA v Hv). }
    destruct Nt as (body & Nt).
    set (s3 := with_scope (d_scope s) (snd r)).
    assert (G1 : d_next s3 = d_next s2) by (unfold s3; rewrite Nt; auto). assert (G2 : d_funs s3 = d_funs s) by (unfold s3; rewrite Nt; cbn; congruence).
    assert (G3 : d_notes s3 = (vs, dom, body) :: d_notes s2) by (unfold s3; rewrite Nt; auto).
    assert (G4 : asserts (d_ops s3) = asserts (d_ops s)) by (unfold s3; rewrite Nt; cbn [with_scope note d_ops]; congruence).
    assert (B3 : forall v, Bs s3 v <-> Bs s2 v \/ In v vs).
    { intros v. unfold Bs. rewrite G3. split.
      - intros (x & [<-|X] & Y); [right; auto|left; exists x; auto].
      - intros [(x & X & Y)|X]; [exists x; split; auto; right; auto|exists (vs, dom, body); split; [left; auto|auto]]. }
    pose proof (al_le _ _ (proj1 EX1)) as L1. pose proof (al_le _ _ (proj1 EX2)) as L2.
    assert (EX : ext s s3).
    { destruct EX1 as (X1 & X2 & X3 & X4). destruct EX2 as (Y1 & Y2 & Y3 & Y4). split; [lia|]. split; [intros v Hv; apply B3; auto|]. split.
      - intros v Hv. apply B3 in Hv. destruct Hv as [Hv|Hv]; [|right; apply Rng; auto]. destruct (Y3 v Hv) as [Z|Z]; [auto|right; lia].
      - intros v Hv. left. apply (Ps_funs s s3 G2); auto. }
    assert (HI3 : SInv s3).
    { apply (SInv_ext s s3); auto.
      - intros x v Hx. apply (ext_As s s3); auto. apply (si_scope s HI x v Hx).
      - intros v Hv. rewrite G1. apply B3 in Hv. destruct Hv as [Hv|Hv]; [apply (si_b s2 HI2 v Hv)|]. apply Rng in Hv. lia. }
    exists []. split. { split; auto. split; auto. split; auto. split; auto. intros g []. }
    split.
    { apply (occT_mono (fun v => Bs s2 v \/ In v vs) (Bs s3) (fun v => As s2 v /\ ~ In v vs) (As s3) (TmF (fst r))); [intros v Hv; apply B3; auto| |exact Or].
      intros v ((X1 & X2 & X3) & X4). split; [rewrite G1; auto|]. split; [rewrite B3; tauto|]. intros X. apply X3. apply (Ps_funs s1 s2 F2). apply (Ps_funs s s1 F1). apply (Ps_funs s s3 G2); auto. }
    split; auto. intros FN FD E0 Hd. cbn [defd] in Hd. rewrite all_values_iff in Hd.
    intros rho HR HF _. split; [|exists rho; split; [intros v _; auto|split; [intros v; auto|intros g []]]].
    intros _. split; [|exact HR].
    assert (Fr : forall vals v, As s v -> rho v = setv vs vals rho v).
    { intros vals v (Hv & _). symmetry. apply setv_out. intros X. apply Rng in X. lia. }
    assert (Bd : forall vals, Forall2 in_sort bs vals -> means FN a (bindl (map (fun b => fst (fst b)) bs) vals E0) (TmF f) (setv vs vals rho)).
    { intros vals Hv. destruct (Sm FN FD (bindl (map (fun b => fst (fst b)) bs) vals E0) (Hd vals Hv) (setv vs vals rho)) as [V _].
      - apply RS; auto.
      - intros g fd Hg. rewrite F1 in Hg. apply (FR_agree s FN FD rho (setv vs vals rho) HI (Fr vals) HF g fd Hg).
      - exact I.
      - apply V. intros g []. }
    destruct (Vr rho) as [D1 V1]. { intros vals Hv. apply (Bd vals Hv). }
    split; [|exact D1]. cbn [tval den]. f_equal. apply decide_iff. rewrite V1, all_values_iff. split; intros H vals Hv; specialize (H vals Hv).
    - destruct (Bd vals (in_binder_sort _ _ Hv)) as [B1 _]. rewrite <- B1. cbn [tval]. f_equal. apply decide_true. auto.
    - destruct (Bd vals (in_binder_sort _ _ Hv)) as [B1 _]. rewrite <- B1 in H. cbn [tval] in H. injection H as H. apply decide_true. auto.
  Qed.

  Lemma comb_app {X Y} (a a' : list X) (b b' : list Y) : length a = length b -> combine (a ++ a') (b ++ b') = combine a b ++ combine a' b'.
  Proof. revert b. induction a as [|x a IH]; intros [|y b] L; try discriminate; auto. cbn [app combine]. f_equal. apply IH. cbn in L. lia. Qed.
  Lemma bindl_rev (xs : list nat) ws E : length xs = length ws -> bindl (rev xs) (rev ws) E = bindvs (combine xs ws) E.
  Proof.
    intros L. unfold bindl, bindvs. rewrite <- fold_left_rev_right. f_equal. rewrite <- (rev_involutive (combine xs ws)). f_equal.
    revert ws L. induction xs as [|x xs IH]; intros [|w ws] L; try discriminate; auto. cbn [rev combine].
    rewrite comb_app by (rewrite !rev_length; cbn in L; lia). rewrite IH by (cbn in L; lia). auto.
  Qed.
  Lemma f2_rev {X Y} (P : X -> Y -> Prop) l l' : Forall2 P l l' -> Forall2 P (rev l) (rev l').
  Proof. induction 1; cbn [rev]; auto. apply Forall2_app; auto. Qed.
  Lemma PT_let bs a : Forall PT (map snd bs) -> PT a -> PT (SLet bs a).
  Proof.
    intros Hb Ha s tm s' tr HI E Ht Hp Hk. cbn [elab] in E. cbn [plain_term] in Hp. destruct Hp as (Pb & Pa).
    apply bind_val in E. destruct E as (p & t1 & t2 & E1 & E2 & ->). apply bind_val in E2. destruct E2 as (s2 & t3 & t4 & E2 & E3 & ->).
    apply bind_val in E3. destruct E3 as (q & t5 & t6 & E3 & E4 & ->). apply ret_val in E4. destruct E4 as [E4 ->]. injection E4 as -> ->.
    rewrite app_nil_r in Ht. apply Forall_app in Ht. destruct Ht as [O1 O2]. apply Forall_app in O2. destruct O2 as [O2 O3].
    destruct (elab_binds_elabs _ _ _ _ _ E1) as [E1' Nm]. destruct p as [p s1]. destruct q as [q s3]. cbn [fst snd] in *. cbn [with_scope d_notes] in Hk.
    assert (Pl : Forall plain_term (map snd bs)).
    { clear - Pb. induction bs as [|[x b] bs IH]; cbn [map fold_right] in *; constructor; [apply Pb|apply IH, Pb]. }
    assert (Hk2 : Forall kept (d_notes s2)) by (apply (kept_mono s2 s3); auto; apply (elab_notes a s2 (q, s3) t5 E3)).
    assert (Hk1 : Forall kept (d_notes s1)) by (rewrite <- (bind_lets_notes _ _ _ _ E2); auto).
    destruct (elabs_ok _ Hb s (map snd p) s1 t1 HI E1' O1 Pl Hk1) as (cs1 & S1 & Oc1 & _ & M1).
    assert (HI1 : SInv s1) by apply S1.
    assert (Op : Forall (fun p => occT (Bs s1) (As s1) (snd p)) (rev p)).
    { apply Forall_rev. clear - Oc1. induction p as [|x p IH]; cbn [map] in *; constructor; [apply (Forall_inv Oc1)|apply IH, (Forall_inv_tail Oc1)]. }
    destruct (bind_lets_ok (rev p) s1 s2 t3 HI1 Op E2 O2) as (cs2 & S2 & M2).
    assert (HI2 : SInv s2) by apply S2.
    destruct (Ha s2 q s3 t5 HI2 E3 O3 Pa Hk) as (cs3 & S3 & Oc3 & _ & M3).
    pose proof (strct_seq _ _ _ _ _ S1 S2) as S12. pose proof (strct_seq _ _ _ _ _ S12 S3) as S13.
    set (s4 := with_scope (d_scope s) s3).
    assert (AB : (forall v, Bs s4 v <-> Bs s3 v) /\ (forall v, As s4 v <-> As s3 v)) by (split; intros v; exact (iff_refl _)).
    assert (S4 : strct s s4 (cs3 ++ cs2 ++ cs1)).
    { destruct S13 as (X1 & X2 & X3 & X4 & X5). split; [exact X1|]. split; [exact X2|]. split; [|split; auto].
      apply (SInv_ext s s4); auto; [|apply (si_b s3 X3)]. intros x v Hx. apply (ext_As s s4 v X1). apply (si_scope s HI x v Hx). }
    exists (cs3 ++ cs2 ++ cs1). split; auto. split; [exact Oc3|]. split; [discriminate|].
    intros FN FD E (Db & Da).
    set (ws := map (fun b => den M FN b E) (map snd bs)).
    assert (EE : bindvs (map (fun p => match p with (x, b) => (x, den M FN b E) end) bs) E = bindl (rev (map fst bs)) (rev ws) E).
    { rewrite bindl_rev by (unfold ws; rewrite !map_length; auto). f_equal. unfold ws. clear. induction bs as [|[x b] bs IH]; cbn [map combine fst snd]; auto. f_equal; auto. }
    rewrite EE in Da.
    assert (Dl : Forall (fun t => defd M FN stdD FD t E) (map snd bs)).
    { clear - Db. induction bs as [|[x b] bs IH]; cbn [map fold_right] in *; constructor; [apply Db|apply IH, Db]. }
    assert (Lw : length (rev ws) = length (rev p)).
    { rewrite !rev_length. unfold ws. rewrite !map_length. rewrite <- (map_length fst p), Nm, map_length. auto. }
    assert (C1 : sem s s2 (cs2 ++ cs1) FN FD E (bindl (map fst (rev p)) (rev ws) E) (fun _ => True) (fun rho => Forall2 (fun t tm => means FN t E tm rho) (map snd bs) (map snd p) /\ True)).
    { apply (sem_seq s s1 s2 cs1 cs2 FN FD E E _ _ _ _ _ _ HI S1 S2 (M1 FN FD E Dl) (M2 FN FD E (rev ws) Lw)); auto.
      intros rho _ H. apply f2_rev. unfold ws. clear - H. revert H. generalize (map snd bs) as l. induction p as [|x p IH]; intros l H; inversion H; subst; cbn [map]; constructor; auto. }
    rewrite map_rev, Nm in C1.
    pose proof (sem_seq s s2 s3 (cs2 ++ cs1) cs3 FN FD E _ _ (fun _ => True) _ _ _ _ HI S12 S3 C1 (M3 FN FD _ Da) (fun _ _ _ H => H) (fun _ H => H) (fun _ H _ => H)) as C2.
    intros rho HR HF _. destruct (C2 rho HR HF I) as [V X]. split; [|exact X].
    intros Hc. destruct (V Hc) as [[_ K1] _]. split; [|exact HR].
    destruct K1 as [K1 K2]. split; auto. rewrite K1. cbn [den]. f_equal. symmetry. exact EE.
  Qed.

  Theorem elab_ok t : PT t.
  Proof.
    induction t using sterm_ind2.
    - apply PT_leaf; auto. intros s tm s' tr E HI. cbn [elab] in E. val E. split; auto. split; [exact I|]. intros FN E' rho _. split; [|exact I]. cbn [tval den]. f_equal. apply decide_true. exact I.
    - apply PT_leaf; auto. intros s tm s' tr E HI. cbn [elab] in E. val E. split; auto. split; [exact I|]. intros FN E' rho _. split; [|exact I]. cbn [tval den]. f_equal. apply decide_false. intros [].
    - apply PT_leaf; auto. intros s tm s' tr E HI. cbn [elab] in E. destruct (assoc x (d_scope s)) as [v|] eqn:Ev; [|discriminate]. val E. split; auto.
      pose proof (si_scope s HI x v (assoc_In _ _ _ Ev)) as Av.
      destruct (vty v) eqn:Tv; (split; [first [exact (conj Av Tv) | refine (conj Av _); congruence]|]); intros FN E' rho HR; (split; [|exact I]); cbn [den]; rewrite (HR x v Ev); unfold varval; rewrite Tv; reflexivity.
    - apply PT_leaf; auto. intros s tm s' tr E HI. cbn [elab] in E. val E. split; auto. split; [apply occ_const|]. intros FN E' rho _. split; [|apply df_const]. cbn [tval den]. f_equal. apply mk_const_ev.
    - apply PT_leaf; auto. intros s tm s' tr E HI. cbn [elab] in E. val E. split; auto. split; [exact I|]. intros FN E' rho _. split; [reflexivity|exact I].
    - (* = *) apply PT_intro. intros s tm s' tr HI E Ht [P1 P2] Hk. cbn [elab] in E.
      apply bind_val in E. destruct E as (p & u1 & u2 & E1 & E2 & ->). apply bind_val in E2. destruct E2 as ([q s2] & u3 & u4 & E2 & E3 & ->). cbn [fst snd] in E3.
      rewrite app_assoc in Ht. apply Forall_app in Ht. destruct Ht as [O1 O2].
      assert (Es : s' = s2). { destruct (fst p), q; try discriminate; [apply bind_val in E3; destruct E3 as (g & ? & ? & _ & E3 & _)|]; apply ret_val in E3; destruct E3 as [E3 _]; injection E3; auto. }
      subst s'. destruct (two_terms t1 t2 s p s2 q u1 u3 IHt1 IHt2 HI E1 E2 O1 P1 P2 Hk) as (cs & S2 & Op & Oq & Nc & Sm).
      exists cs, (fun FN E rho => means FN t1 E (fst p) rho /\ means FN t2 E q rho). split; auto. destruct (fst p) as [x|x], q as [y|y]; try discriminate.
      + apply bind_val in E3. destruct E3 as (g & u5 & u6 & E3 & E4 & ->). val1 E4. rewrite app_nil_r in O2. split; [apply (occ_relm M fpow n _ _ REq x y Op Oq g u5 E3 O2)|].
        split; auto. split; [intros FN FD E [D1 D2]; auto|]. intros FN FD E rho _ _ _ [K1 K2]. apply means_E in K1. apply means_E in K2. destruct K1 as [K1 D1], K2 as [K2 D2].
        destruct (mk_relm_ev uf rc fpow n REq x y rho g u5 E3 O2 D1 D2) as [D3 V3]. split; [|exact D3]. cbn [tval den]. rewrite K1, K2. f_equal. apply decide_iff. exact V3.
      + val1 E3. split; [unfold mk_feq; apply occ_mk_and; apply occ_mk_or; auto; apply o_not; auto|]. split; auto. split; [intros FN FD E [D1 D2]; auto|].
        intros FN FD E rho _ _ _ [K1 K2]. apply means_F in K1. apply means_F in K2. destruct K1 as [K1 D1], K2 as [K2 D2].
        split; [cbn [tval den]; rewrite K1, K2, hdec_feq; auto|]. cbn [tdf]. unfold mk_feq. apply d_and; apply d_or; auto; apply d_not; auto.
    - (* < etc. *) apply PT_intro. intros s tm s' tr HI E Ht [P1 P2] Hk. cbn [elab] in E.
      apply bind_val in E. destruct E as (p & u1 & u2 & E1 & E2 & ->). apply bind_val in E2. destruct E2 as ([q s2] & u3 & u4 & E2 & E3 & ->). cbn [fst snd] in E3.
      rewrite app_assoc in Ht. apply Forall_app in Ht. destruct Ht as [O1 O2].
      apply bind_val in E3. destruct E3 as (x & u5 & u6 & Ex & E3 & ->). apply bind_val in E3. destruct E3 as (y & u7 & u8 & Ey & E3 & ->).
      apply bind_val in E3. destruct E3 as (g & u9 & u10 & E3 & E4 & ->). val E4. apply getE_val in Ex. destruct Ex as [Ex ->]. apply getE_val in Ey. destruct Ey as [-> ->]. cbn [app] in O2. rewrite app_nil_r in O2.
      destruct (two_terms t1 t2 s p s2 (TmE y) u1 u3 IHt1 IHt2 HI E1 E2 O1 P1 P2 Hk) as (cs & S2 & Op & Oq & Nc & Sm). rewrite Ex in *.
      exists cs, (fun FN E rho => means FN t1 E (TmE x) rho /\ means FN t2 E (TmE y) rho). split; auto.
      split; [apply (occ_relm M fpow n _ _ o x y Op Oq g u9 E3 O2)|].
      split; auto. split; [intros FN FD E [D1 D2]; auto|]. intros FN FD E rho _ _ _ [K1 K2]. apply means_E in K1. apply means_E in K2. destruct K1 as [K1 D1], K2 as [K2 D2].
      destruct (mk_relm_ev uf rc fpow n o x y rho g u9 E3 O2 D1 D2) as [D3 V3]. split; [|exact D3]. cbn [tval den]. rewrite K1, K2. f_equal. apply decide_iff. exact V3.
    - (* and *) apply PT_intro. intros s tm s' tr HI E Ht P1 Hk. cbn [elab] in E. cbn [plain_term] in P1. apply fold_plain in P1.
      apply bind_val in E. destruct E as ([p s2] & u1 & u2 & E1 & E2 & ->). apply bind_val in E2. destruct E2 as (g & u3 & u4 & E2 & E3 & ->). cbn [fst snd] in *. val E3.
      apply Forall_app in Ht. destruct Ht as [O1 O2]. destruct (elabs_ok l H s p s2 u1 HI E1 O1 P1 Hk) as (cs & S2 & Op & Nc & Sm).
      destruct (fold_form_ok mk_and andb (fun B A f g => occ_mk_and B A f g) d_and hdec_and p FTrue g u3 E2) as (_ & Og & Vg).
      exists cs, (fun FN E rho => Forall2 (fun t tm => means FN t E tm rho) l p). split; auto. split; [apply Og; auto; exact I|]. split; auto.
      split; [intros FN FD E D; cbn [defd] in D; apply fold_defd in D; auto|]. intros FN FD E rho _ _ _ K. destruct (Vg FN E l rho K I) as [D1 V1]. split; [|exact D1].
      cbn [tval den]. f_equal. rewrite V1, fold_andb, forallb_map. rewrite (proj2 (decide_true (hd FTrue rho)) I). auto.
    - (* or *) apply PT_intro. intros s tm s' tr HI E Ht P1 Hk. cbn [elab] in E. cbn [plain_term] in P1. apply fold_plain in P1.
      apply bind_val in E. destruct E as ([p s2] & u1 & u2 & E1 & E2 & ->). apply bind_val in E2. destruct E2 as (g & u3 & u4 & E2 & E3 & ->). cbn [fst snd] in *. val E3.
      apply Forall_app in Ht. destruct Ht as [O1 O2]. destruct (elabs_ok l H s p s2 u1 HI E1 O1 P1 Hk) as (cs & S2 & Op & Nc & Sm).
      destruct (fold_form_ok mk_or orb (fun B A f g => occ_mk_or B A f g) d_or hdec_or p FFalse g u3 E2) as (_ & Og & Vg).
      exists cs, (fun FN E rho => Forall2 (fun t tm => means FN t E tm rho) l p). split; auto. split; [apply Og; auto; exact I|]. split; auto.
      split; [intros FN FD E D; cbn [defd] in D; apply fold_defd in D; auto|]. intros FN FD E rho _ _ _ K. destruct (Vg FN E l rho K I) as [D1 V1]. split; [|exact D1].
      cbn [tval den]. f_equal. rewrite V1, fold_orb, existsb_map. rewrite (proj2 (decide_false (hd FFalse rho)) (fun X => X)). auto.
    - (* xor *) apply PT_intro. intros s tm s' tr HI E Ht P1 Hk. cbn [elab] in E. cbn [plain_term] in P1. apply fold_plain in P1.
      apply bind_val in E. destruct E as ([p s2] & u1 & u2 & E1 & E2 & ->). apply bind_val in E2. destruct E2 as (g & u3 & u4 & E2 & E3 & ->). cbn [fst snd] in *. val E3.
      apply Forall_app in Ht. destruct Ht as [O1 O2]. destruct (elabs_ok l H s p s2 u1 HI E1 O1 P1 Hk) as (cs & S2 & Op & Nc & Sm).
      destruct (fold_form_ok xor_step xorb) with (l := p) (f := FFalse) (g := g) (tr := u3) as (_ & Og & Vg); auto.
      { intros B A f g' Hf Hg. unfold xor_step. apply occ_mk_or; apply occ_mk_and; auto; apply o_not; auto. }
      { intros f g' rho Hf Hg. unfold xor_step. apply d_or; apply d_and; auto; apply d_not; auto. }
      { apply hdec_xor. }
      exists cs, (fun FN E rho => Forall2 (fun t tm => means FN t E tm rho) l p). split; auto. split; [apply Og; auto; exact I|]. split; auto.
      split; [intros FN FD E D; cbn [defd] in D; apply fold_defd in D; auto|]. intros FN FD E rho _ _ _ K. destruct (Vg FN E l rho K I) as [D1 V1]. split; [|exact D1].
      cbn [tval den]. f_equal. rewrite V1. rewrite (proj2 (decide_false (hd FFalse rho)) (fun X => X)). auto.
    - (* not *) apply PT_intro. intros s tm s' tr HI E Ht P1 Hk. cbn [elab] in E. cbn [plain_term] in P1.
      apply bind_val in E. destruct E as ([p s2] & u1 & u2 & E1 & E2 & ->). apply bind_val in E2. destruct E2 as (x & u3 & u4 & E2 & E3 & ->). cbn [fst snd] in *. val E3.
      apply getF_val in E2. destruct E2 as [-> ->]. cbn [app] in Ht. rewrite app_nil_r in Ht. destruct (IHt s (TmF x) s2 u1 HI E1 Ht P1 Hk) as (cs & S2 & Op & Nc & Sm).
      exists cs, (fun FN E rho => means FN t E (TmF x) rho). split; auto. split; [apply o_not; exact Op|]. split; auto. split; auto.
      intros FN FD E rho _ _ _ K. apply means_F in K. destruct K as [K D]. split; [cbn [tval den]; rewrite K, hdec_not; auto|apply d_not; auto].
    - (* => *) apply PT_intro. intros s tm s' tr HI E Ht [P1 P2] Hk. cbn [elab] in E.
      apply bind_val in E. destruct E as (p & u1 & u2 & E1 & E2 & ->). apply bind_val in E2. destruct E2 as ([q s2] & u3 & u4 & E2 & E3 & ->). cbn [fst snd] in E3.
      rewrite app_assoc in Ht. apply Forall_app in Ht. destruct Ht as [O1 O2].
      apply bind_val in E3. destruct E3 as (x & u5 & u6 & Ex & E3 & ->). apply bind_val in E3. destruct E3 as (y & u7 & u8 & Ey & E3 & ->).
      val E3. apply getF_val in Ex. destruct Ex as [Ex ->]. apply getF_val in Ey. destruct Ey as [-> ->].
      destruct (two_terms t1 t2 s p s2 (TmF y) u1 u3 IHt1 IHt2 HI E1 E2 O1 P1 P2 Hk) as (cs & S2 & Op & Oq & Nc & Sm). rewrite Ex in *.
      exists cs, (fun FN E rho => means FN t1 E (TmF x) rho /\ means FN t2 E (TmF y) rho). split; auto.
      split; [apply occ_mk_or; auto; apply o_not; exact Op|].
      split; auto. split; [intros FN FD E [D1 D2]; auto|]. intros FN FD E rho _ _ _ [K1 K2]. apply means_F in K1. apply means_F in K2. destruct K1 as [K1 D1], K2 as [K2 D2].
      split; [|apply d_or; auto; apply d_not; auto]. cbn [tval den]. rewrite K1, K2, hdec_or, hdec_not. cbn [vb]. f_equal. destruct (decide (hd x rho)); auto.
    - (* ite *) apply PT_intro. intros s tm s' tr HI E Ht (P1 & P2 & P3) Hk. cbn [elab] in E.
      apply bind_val in E. destruct E as (p & u1 & u2 & E1 & E2 & ->). apply bind_val in E2. destruct E2 as ([q s2] & u3 & u4 & E2 & E3 & ->). cbn [fst snd] in E3.
      apply bind_val in E3. destruct E3 as ([r s3] & u5 & u6 & E3 & E4 & ->). cbn [fst snd] in E4. apply bind_val in E4. destruct E4 as (g & u7 & u8 & Eg & E4 & ->).
      apply getF_val in Eg. destruct Eg as [Eg ->]. rewrite app_assoc in Ht. apply Forall_app in Ht. destruct Ht as [O1 O2]. apply Forall_app in O2. destruct O2 as [O2 O3].
      assert (Es : s' = s3). { destruct q, r; try discriminate; apply ret_val in E4; destruct E4 as [E4 _]; injection E4; auto. }
      subst s'.
      assert (Hk2 : Forall kept (d_notes s2)) by (apply (kept_mono s2 s3); auto; apply (elab_notes t3 s2 (r, s3) u5 E3)).
      destruct (two_terms t1 t2 s p s2 q u1 u3 IHt1 IHt2 HI E1 E2 O1 P1 P2 Hk2) as (cs & S2 & Op & Oq & Nc & Sm). rewrite Eg in *.
      destruct (IHt3 s2 r s3 u5 (proj1 (proj2 (proj2 S2))) E3 O2 P3 Hk) as (cs' & S3 & Or & Nc' & Sm').
      pose proof (ext_occT s2 s3 _ (proj1 S3) Op) as Op'. pose proof (ext_occT s2 s3 _ (proj1 S3) Oq) as Oq'.
      exists (cs' ++ cs), (fun FN E rho => (means FN t1 E (TmF g) rho /\ means FN t2 E q rho) /\ means FN t3 E r rho). split; [apply (strct_seq s s2); auto|].
      assert (Nl : has_let (SIte t1 t2 t3) = false -> cs' ++ cs = []). { cbn [has_let]. intros X. apply orb_false_iff in X. destruct X as [X1 X2]. rewrite (Nc X1), (Nc' X2). auto. }
      assert (Sm2 : forall FN FD E, defd M FN stdD FD (SIte t1 t2 t3) E -> sem s s3 (cs' ++ cs) FN FD E E (fun _ => True) (fun rho => (means FN t1 E (TmF g) rho /\ means FN t2 E q rho) /\ means FN t3 E r rho)).
      { intros FN FD E (D1 & D2 & D3). apply (two_ok s s2 s3); auto. }
      destruct q as [x|x], r as [y|y]; try discriminate; val1 E4.
      + split; [apply occ_mk_ite; auto|]. split; auto. split; auto. intros FN FD E rho _ _ _ [[K1 K2] K3]. apply means_F in K1. apply means_E in K2. apply means_E in K3. destruct K1 as [K1 D1], K2 as [K2 D2], K3 as [K3 D3].
        destruct (mk_ite_ev uf rc g x y rho D1 D2 D3) as (D4 & V1 & V2). split; [|exact D4]. cbn [tval den]. rewrite K1, K2, K3. cbn [vb]. destruct (decide (hd g rho)) eqn:Eb.
        * rewrite V1; auto. apply decide_true; auto.
        * rewrite V2; auto. apply decide_false; auto.
      + split; [apply occ_mk_and; apply occ_mk_or; auto; apply o_not; auto|]. split; auto. split; auto. intros FN FD E rho _ _ _ [[K1 K2] K3].
        apply means_F in K1. apply means_F in K2. apply means_F in K3. destruct K1 as [K1 D1], K2 as [K2 D2], K3 as [K3 D3].
        split; [|apply d_and; apply d_or; auto; apply d_not; auto]. cbn [tval den]. rewrite K1, K2, K3, hdec_and, !hdec_or, hdec_not. cbn [vb].
        destruct (decide (hd g rho)), (decide (hd x rho)), (decide (hd y rho)); auto.
    - apply PT_forall; auto.
    - apply PT_let; auto.
    - (* - *) apply PT_intro. intros s tm s' tr HI E Ht P1 Hk. cbn [elab] in E. cbn [plain_term] in P1.
      apply bind_val in E. destruct E as ([p s2] & u1 & u2 & E1 & E2 & ->). apply bind_val in E2. destruct E2 as (x & u3 & u4 & E2 & E3 & ->). cbn [fst snd] in *.
      apply bind_val in E3. destruct E3 as (e & u5 & u6 & E3 & E4 & ->). val E4.
      apply getE_val in E2. destruct E2 as [-> ->]. cbn [app] in Ht. rewrite app_nil_r in Ht. apply Forall_app in Ht. destruct Ht as [O1 O2].
      destruct (IHt s (TmE x) s2 u1 HI E1 O1 P1 Hk) as (cs & S2 & Op & Nc & Sm).
      exists cs, (fun FN E rho => means FN t E (TmE x) rho). split; auto. split; [apply (occ_neg M fpow n _ _ x Op e u5 E3 O2)|]. split; auto. split; auto.
      intros FN FD E rho _ _ _ K. apply means_E in K. destruct K as [K D]. destruct (mk_neg_ev uf rc fpow n x rho D e u5 E3 O2) as [D1 V1]. split; [cbn [tval den]; rewrite K, V1; auto|exact D1].
    - (* + - * / *) apply PT_intro. intros s tm s' tr HI E Ht [P1 P2] Hk. cbn [elab] in E. apply fold_plain in P2.
      apply bind_val in E. destruct E as ([p s1] & u1 & u2 & E1 & E2 & ->). apply bind_val in E2. destruct E2 as ([q s2] & u3 & u4 & E2 & E3 & ->). cbn [fst snd] in *.
      apply Forall_app in Ht. destruct Ht as [O1 O2]. apply Forall_app in O2. destruct O2 as [O2 O3].
      assert (Es : s' = s2). { destruct q; [apply ret_val in E3; destruct E3 as [E3 _]; injection E3; auto|]. apply bind_val in E3. destruct E3 as (x & ? & ? & _ & E3 & _). apply bind_val in E3. destruct E3 as (e & ? & ? & _ & E3 & _). apply ret_val in E3; destruct E3 as [E3 _]; injection E3; auto. }
      subst s'.
      assert (Hk1 : Forall kept (d_notes s1)).
      { apply (kept_mono s1 s2); auto. apply (elabs_notes l) with (r := (q, s2)) (tr := u3); auto. apply Forall_forall. intros x _. apply elab_notes. }
      destruct (IHt s p s1 u1 HI E1 O1 P1 Hk1) as (cs1 & S1 & Oc1 & N1 & M1).
      destruct (elabs_ok l H s1 q s2 u3 (proj1 (proj2 (proj2 S1))) E2 O2 P2 Hk) as (cs2 & S2 & Oc2 & N2 & M2).
      pose proof (ext_occT s1 s2 _ (proj1 S2) Oc1) as Oc1'.
      exists (cs2 ++ cs1), (fun FN E rho => means FN t E p rho /\ Forall2 (fun t tm => means FN t E tm rho) l q). split; [apply (strct_seq s s1); auto|].
      assert (Nl : has_let (SAri o t l) = false -> cs2 ++ cs1 = []). { cbn [has_let]. intros X. apply orb_false_iff in X. destruct X as [X1 X2]. rewrite (N1 X1), (N2 X2). auto. }
      assert (Dl : forall FN FD E, defd M FN stdD FD (SAri o t l) E -> defd M FN stdD FD t E /\ Forall (fun t => defd M FN stdD FD t E) l /\ Forall (fun t => o = ADiv -> vr (den M FN t E) <> 0%R) l).
      { intros FN FD E [D1 D2]. split; auto. clear - D2. induction l as [|a l IH]; cbn [fold_right] in *; auto. destruct D2 as [[X1 X2] X3]. destruct (IH X3). auto. }
      assert (Sm : forall FN FD E, defd M FN stdD FD (SAri o t l) E -> sem s s2 (cs2 ++ cs1) FN FD E E (fun _ => True) (fun rho => means FN t E p rho /\ Forall2 (fun t tm => means FN t E tm rho) l q)).
      { intros FN FD E D. destruct (Dl FN FD E D) as (D1 & D2 & _). apply (two_ok s s1 s2); auto. }
      destruct q as [|q0 q].
      + val1 E3. split; auto. split; auto. split; auto. intros FN FD E rho _ _ _ [K1 K2]. inversion K2; subst. exact K1.
      + apply bind_val in E3. destruct E3 as (x & u5 & u6 & Ex & E3 & ->). apply bind_val in E3. destruct E3 as (e & u7 & u8 & E3 & E4 & ->). val1 E4.
        apply getE_val in Ex. destruct Ex as [-> ->]. cbn [app] in O3. rewrite app_nil_r in O3. destruct (fold_ari_ok o (q0 :: q) x e u7 E3 O3) as [Oe Ve].
        split; [apply Oe; auto|]. split; auto. split; auto. intros FN FD E rho _ _ D [K1 K2]. destruct (Dl FN FD E D) as (_ & _ & D3). apply means_E in K1. destruct K1 as [K1 D1].
        destruct (Ve FN E l rho K2 D3 D1) as [D4 V4]. split; [|exact D4]. destruct l as [|l0 l]; [inversion K2|]. cbn [tval den]. rewrite V4, K1. auto.
    - (* functions *) apply PT_intro. intros s tm s' tr HI E Ht P1 Hk. cbn [elab] in E. cbn [plain_term] in P1.
      apply bind_val in E. destruct E as ([p s2] & u1 & u2 & E1 & E2 & ->). apply bind_val in E2. destruct E2 as (x & u3 & u4 & E2 & E3 & ->). cbn [fst snd] in *.
      apply bind_val in E3. destruct E3 as (e & u5 & u6 & E3 & E4 & ->). val E4.
      apply getE_val in E2. destruct E2 as [-> ->]. cbn [app] in Ht. rewrite app_nil_r in Ht. apply Forall_app in Ht. destruct Ht as [O1 O2].
      destruct (IHt s (TmE x) s2 u1 HI E1 O1 P1 Hk) as (cs & S2 & Op & Nc & Sm).
      exists cs, (fun FN E rho => means FN t E (TmE x) rho). split; auto. split; [apply (occ_un M _ _ o x Op e u5 E3 O2)|]. split; auto. split; [intros FN FD E [D1 D2]; auto|].
      intros FN FD E rho _ _ [_ D2] K. apply means_E in K. destruct K as [K D]. rewrite K in D2. cbn [vr] in D2.
      destruct (mk_un_ev uf rc o x rho D D2 e u5 E3 O2) as [D1 V1]. split; [cbn [tval den]; rewrite K, V1; auto|exact D1].
    - apply PT_intro. intros s tm s' tr HI E Ht [P1 P2] Hk. cbn [elab] in E.
      apply bind_val in E. destruct E as (p & u1 & u2 & E1 & E2 & ->). apply bind_val in E2. destruct E2 as ([q s2] & u3 & u4 & E2 & E3 & ->). cbn [fst snd] in E3.
      rewrite app_assoc in Ht. apply Forall_app in Ht. destruct Ht as [O1 O2].
      apply bind_val in E3. destruct E3 as (x & u5 & u6 & Ex & E3 & ->). apply bind_val in E3. destruct E3 as (y & u7 & u8 & Ey & E3 & ->).
      apply bind_val in E3. destruct E3 as (g & u9 & u10 & E3 & E4 & ->). val E4. apply getE_val in Ex. destruct Ex as [Ex ->]. apply getE_val in Ey. destruct Ey as [-> ->]. cbn [app] in O2. rewrite app_nil_r in O2.
      destruct (two_terms t1 t2 s p s2 (TmE y) u1 u3 IHt1 IHt2 HI E1 E2 O1 P1 P2 Hk) as (cs & S2 & Op & Oq & Nc & Sm). rewrite Ex in *.
      exists cs, (fun FN E rho => means FN t1 E (TmE x) rho /\ means FN t2 E (TmE y) rho). split; auto.
      split; [apply (occ_bin M fpow _ _ o x y Op Oq g u9 E3 O2)|].
      split; auto. split; [intros FN FD E (D1 & D2 & _); auto|]. intros FN FD E rho _ _ (_ & _ & D3) [K1 K2]. apply means_E in K1. apply means_E in K2. destruct K1 as [K1 D1], K2 as [K2 D2].
      rewrite K1, K2 in D3. cbn [vr] in D3.
      destruct (mk_bin_ev uf rc fpow o x y rho D1 D2 D3 g u9 E3 O2) as [D4 V4]. split; [|exact D4]. cbn [tval den]. rewrite K1, K2, V4. auto.
    - (* application *) apply PT_intro. intros s tm s' tr HI E Ht P1 Hk. cbn [elab] in E. cbn [plain_term] in P1. apply fold_plain in P1.
      apply bind_val in E. destruct E as ([p s2] & u1 & u2 & E1 & E2 & ->). cbn [fst snd] in *. destruct (assoc f (d_funs s2)) as [fd|] eqn:Ef; [|discriminate].
      apply bind_val in E2. destruct E2 as (t' & u3 & u4 & E2 & E3 & ->). val E3. rewrite app_nil_r in Ht.
      apply Forall_app in Ht. destruct Ht as [O1 O2]. destruct (elabs_ok l H s p s2 u1 HI E1 O1 P1 Hk) as (cs & S2 & Op & Nc & Sm).
      destruct S2 as (X1 & X2 & HI2 & X4 & X5). destruct (si_fun s2 HI2 f fd (assoc_In _ _ _ Ef)) as [ND Ob].
      assert (PP : forall v, In v (fd_params fd) -> Ps s2 v) by (intros v Hv; exists (f, fd); split; auto; apply assoc_In; auto).
      unfold apply_fun in E2. destruct (Nat.eqb (length (fd_params fd)) (length p)) eqn:El; cbn [negb] in E2; [|discriminate]. apply Nat.eqb_eq in El.
      destruct (type_ok (fd_body fd) (sort_type (fd_sort fd))); cbn [negb] in E2; [|discriminate].
      destruct (apply_args_ev (Bs s2) (As s2)) with (ps := fd_params fd) (args := p) (t := fd_body fd) (r := t') (tr := u3) as (_ & Or & Tk & Vr); auto.
      { intros v Hv. apply Hv. } { intros v Hv X. apply (proj2 (proj2 X)); auto. } { intros v Hv. apply (si_pb s2 HI2); auto. }
      exists cs, (fun FN E rho => Forall2 (fun t tm => means FN t E tm rho) l p). split; [exact (conj X1 (conj X2 (conj HI2 (conj X4 X5))))|]. split; auto. split; auto.
      split; [intros FN FD E [D1 D2]; apply fold_defd in D1; auto|].
      intros FN FD E rho _ HF [_ D2] K.
      assert (Ev : map (fun a => tval a rho) p = map (fun t => den M FN t E) l) by (clear - K; induction K as [|a b l l' [H1 _] K IH]; cbn [map]; [auto|]; rewrite H1, IH; auto).
      assert (Dv : Forall (fun a => tdf a rho) p) by (clear - K; induction K as [|a b l l' [_ H1] K IH]; constructor; auto).
      rewrite X2 in Ef. destruct (HF f fd Ef (map (fun t => den M FN t E) l)) as [V1 D1]; auto.
      { rewrite <- Ev. clear - Tk. induction Tk as [|v a ps as' H1 Tk IH]; cbn [map]; constructor; auto. unfold type_ok in H1. unfold kind_ok. destruct a; cbn [is_form tval] in *; destruct (vty v); auto; discriminate. }
      rewrite <- Ev in V1, D1. destruct (Vr rho Dv D1) as [V2 D3]. split; [|exact D3]. rewrite V2, V1. cbn [den]. f_equal. exact Ev.
  Qed.

  (** ** Operations emitted by a term *)
  Definition local_op (i j : nat) (o : cop) : Prop :=
    match o with
    | ONew v => alloc i <= vid v < alloc j
    | ODeclare v m => m = false /\ alloc i <= vid v < alloc j
    | OAssert _ => True
    | _ => False
    end.
  Definition emL (s s' : drv) : Prop := d_next s <= d_next s' /\ exists k, d_ops s' = k ++ d_ops s /\ Forall (local_op (d_next s) (d_next s')) k.
  Lemma local_mono i j i' j' o : i' <= i -> j <= j' -> local_op i j o -> local_op i' j' o.
  Proof. intros H1 H2. pose proof (al_le _ _ H1). pose proof (al_le _ _ H2). destruct o; cbn [local_op]; auto; try tauto; [intros; lia|]. intros [E X]. split; [exact E|lia]. Qed.
  Lemma emL_refl s s' : d_next s' = d_next s -> d_ops s' = d_ops s -> emL s s'.
  Proof. intros H1 H2. split; [lia|]. exists []. rewrite H2. auto. Qed.
  Lemma emL_trans s s1 s2 : emL s s1 -> emL s1 s2 -> emL s s2.
  Proof.
    intros (N1 & k1 & E1 & F1) (N2 & k2 & E2 & F2). split; [lia|]. exists (k2 ++ k1). split; [rewrite E2, E1, app_assoc; auto|].
    apply Forall_app. split; [eapply Forall_impl; [|exact F2]|eapply Forall_impl; [|exact F1]]; intros o; apply local_mono; lia.
  Qed.
  Lemma emL_reg s s' ops : d_next s' = S (d_next s) -> d_ops s' = ops ++ d_ops s -> Forall (local_op (d_next s) (S (d_next s))) ops -> emL s s'.
  Proof. intros H1 H2 H3. split; [lia|]. exists ops. rewrite H1. auto. Qed.
  Lemma local_new s ty : local_op (d_next s) (S (d_next s)) (ONew (mkVar (alloc (d_next s)) ty)).
  Proof. cbn. pose proof (Hal (d_next s) (S (d_next s)) ltac:(lia)). lia. Qed.
  Lemma local_decl s ty : local_op (d_next s) (S (d_next s)) (ODeclare (mkVar (alloc (d_next s)) ty) false).
  Proof. cbn. pose proof (Hal (d_next s) (S (d_next s)) ltac:(lia)). split; auto; lia. Qed.
  Lemma bind_lets_em bs : forall s s1 tr, bind_lets fpow n alloc bs s = (Val s1, tr) -> emL s s1.
  Proof.
    induction bs as [|[x [e|f]] bs IH]; intros s s1 tr E; cbn [bind_lets] in E.
    - apply ret_val in E. destruct E as [-> _]. apply emL_refl; auto.
    - unfold declare_local, register in E. apply bind_val in E. destruct E as (g & t1 & t2 & E1 & E2 & ->).
      eapply emL_trans; [|apply (IH _ _ _ E2)].
      eapply (emL_reg _ _ [_; _; _]); cbn [assert_f emit d_next d_ops]; [reflexivity|reflexivity|]. constructor; [exact I|]. constructor; [apply local_decl|]. constructor; [apply local_new|constructor].
    - unfold declare_local, register in E.
      eapply emL_trans; [|apply (IH _ _ _ E)].
      eapply (emL_reg _ _ [_; _; _]); cbn [assert_f emit d_next d_ops]; [reflexivity|reflexivity|]. constructor; [exact I|]. constructor; [apply local_decl|]. constructor; [apply local_new|constructor].
  Qed.
  Lemma reg_binders_em bs : forall s q s1, reg_binders alloc bs s = (q, s1) -> emL s s1.
  Proof.
    induction bs as [|[[x so] bd] bs IH]; intros s q s1 E; cbn [reg_binders] in E; [injection E as _ <-; apply emL_refl; auto|].
    destruct (register alloc x so s) as [v s'] eqn:Er. destruct (reg_binders alloc bs s') as [q0 s2] eqn:Eb. injection E as _ <-.
    apply (emL_trans s s' s2); [|apply (IH _ _ _ Eb)]. unfold register in Er. injection Er as _ <-. eapply (emL_reg _ _ [_]); cbn [d_next d_ops]; [reflexivity|reflexivity|].
    constructor; [apply local_new|constructor].
  Qed.
  Lemma reg_params_em ps : forall s q s1, reg_params alloc ps s = (q, s1) -> emL s s1 /\ d_notes s1 = d_notes s.
  Proof.
    induction ps as [|[x so] ps IH]; intros s q s1 E; cbn [reg_params] in E; [injection E as _ <-; split; [apply emL_refl; auto|auto]|].
    destruct (declare_local alloc x so s) as [v s'] eqn:Er. destruct (reg_params alloc ps s') as [q0 s2] eqn:Eb. injection E as _ <-.
    unfold declare_local, register in Er. injection Er as _ <-. destruct (IH _ _ _ Eb) as [G1 G2]. split; [|rewrite G2; auto].
    eapply emL_trans; [|exact G1]. eapply (emL_reg _ _ [_; _]); cbn [emit d_next d_ops]; [reflexivity|reflexivity|]. constructor; [apply local_decl|]. constructor; [apply local_new|constructor].
  Qed.
  Definition PE (t : sterm) : Prop := forall s r tr, el t s = (Val r, tr) -> emL s (snd r).
  Lemma elabs_em l : Forall PE l -> forall s r tr, elabs el l s = (Val r, tr) -> emL s (snd r).
  Proof.
    induction 1 as [|a l Ha Hl IH]; intros s r tr E; cbn [elabs] in E; ub E.
    - apply emL_refl; auto.
    - cbn [snd]. eapply emL_trans; [eapply Ha; eauto|eapply IH; eauto].
  Qed.
  Lemma elab_em t : PE t.
  Proof.
    induction t using sterm_ind2; intros s r tr E; cbn [elab] in E.
    1, 2: (apply ret_val in E; destruct E as [-> _]; apply emL_refl; auto).
    - destruct (assoc x (d_scope s)); [|discriminate]. apply ret_val in E. destruct E as [-> _]. apply emL_refl; auto.
    - apply ret_val in E; destruct E as [-> _]; apply emL_refl; auto.
    - apply ret_val in E; destruct E as [-> _]; apply emL_refl; auto.
    - apply bind_val in E. destruct E as (p & u1 & u2 & E1 & E2 & ->). apply bind_val in E2. destruct E2 as (q & u3 & u4 & E2 & E3 & ->).
      assert (snd r = snd q) as ->.
      { destruct (fst p), (fst q); try discriminate; [apply bind_val in E3; destruct E3 as (g & ? & ? & _ & E3 & _)|]; apply ret_val in E3; destruct E3 as [-> _]; auto. }
      eapply emL_trans; [eapply IHt1; eauto|eapply IHt2; eauto].
    - ub E. cbn [snd]. eapply emL_trans; [eapply IHt1; eauto|eapply IHt2; eauto].
    - ub E. cbn [snd]. eapply elabs_em; eauto.
    - ub E. cbn [snd]. eapply elabs_em; eauto.
    - ub E. cbn [snd]. eapply elabs_em; eauto.
    - ub E. cbn [snd]. eapply IHt; eauto.
    - ub E. cbn [snd]. eapply emL_trans; [eapply IHt1; eauto|eapply IHt2; eauto].
    - apply bind_val in E. destruct E as (p & t1' & t2' & E1 & E2 & ->). apply bind_val in E2. destruct E2 as (q & t3' & t4 & E2 & E3 & ->).
      apply bind_val in E3. destruct E3 as (u & t5 & t6 & E3 & E4 & ->). apply bind_val in E4. destruct E4 as (g & t7 & t8 & E4 & E5 & ->).
      assert (snd r = snd u) as -> by (destruct (fst q), (fst u); try discriminate; apply ret_val in E5; destruct E5 as [-> _]; auto).
      eapply emL_trans; [eapply IHt1; eauto|]. eapply emL_trans; [eapply IHt2; eauto|eapply IHt3; eauto].
    - destruct (reg_binders alloc bs s) as [q s1] eqn:Er. ub E. cbn [snd].
      unfold mk_quant in H2. ub H2. cbn [snd]. eapply emL_trans; [eapply reg_binders_em; eauto|]. eapply emL_trans; [eapply IHt; eauto|]. apply emL_refl; auto.
    - ub E. cbn [snd]. destruct (elab_binds_elabs _ _ _ _ _ H0) as [H3 _].
      eapply emL_trans; [apply (elabs_em _ H _ _ _ H3)|]. eapply emL_trans; [eapply bind_lets_em; eauto|]. eapply emL_trans; [eapply IHt; eauto|]. apply emL_refl; auto.
    - ub E. cbn [snd]. eapply IHt; eauto.
    - apply bind_val in E. destruct E as (p & t1' & t2' & E1 & E2 & ->). apply bind_val in E2. destruct E2 as (q & t3' & t4 & E2 & E3 & ->).
      assert (snd r = snd q) as ->. { destruct (fst q); [apply ret_val in E3; destruct E3 as [-> _]; auto|]. ub E3; auto. }
      eapply emL_trans; [eapply IHt; eauto|eapply elabs_em; eauto].
    - ub E. cbn [snd]. eapply IHt; eauto.
    - ub E. cbn [snd]. eapply emL_trans; [eapply IHt1; eauto|eapply IHt2; eauto].
    - apply bind_val in E. destruct E as (p & t1' & t2' & E1 & E2 & ->). destruct (assoc f (d_funs (snd p))); [|discriminate]. ub E2. cbn [snd]. eapply elabs_em; eauto.
  Qed.

  (** ** Histories of calls *)
  Definition run (ops : list cop) (st : problem * list problem) : problem * list problem := fold_left (fun st o => p_step o st) ops st.
  Lemma problems_app a b st : problems (a ++ b) st = problems a st ++ problems b (run a st).
  Proof. revert st. induction a as [|o a IH]; intros st; [reflexivity|]. destruct o; cbn [app problems]; rewrite IH; reflexivity. Qed.
  Lemma run_app a b st : run (a ++ b) st = run b (run a st).
  Proof. apply fold_left_app. Qed.
  Lemma declared_app a b : declared_vars (a ++ b) = declared_vars a ++ declared_vars b.
  Proof. apply flat_map_app. Qed.
  Lemma asserts_rev k f : In f (asserts (rev k)) <-> In f (asserts k).
  Proof.
    unfold asserts. rewrite !in_flat_map. split; intros (o & H1 & H2); exists o; (split; [|exact H2]); [apply in_rev|apply in_rev in H1]; auto.
  Qed.
  Lemma declare_doms v p w d : In (w, d) (p_doms (declare v p)) -> In (w, d) (p_doms p) \/ (w, d) = (v, dom0 (vty v)).
  Proof. unfold declare. destruct (mem_var v _); auto. cbn [p_doms]. intros H. apply in_app_iff in H. destruct H as [H|[H|[]]]; auto. Qed.
  Lemma declare_incl v p x : In x (p_doms p) -> In x (p_doms (declare v p)).
  Proof. unfold declare. destruct (mem_var v _); auto. cbn [p_doms]. intros H. apply in_app_iff. auto. Qed.
  Lemma declare_asserts v p : p_asserts (declare v p) = p_asserts p.
  Proof. unfold declare. destruct (mem_var v _); auto. Qed.
  Lemma locals_run i j k : Forall (local_op i j) k -> forall p sv, problems k (p, sv) = [] /\ declared_vars k = [] /\ snd (run k (p, sv)) = sv /\
    (forall f, In f (p_asserts (fst (run k (p, sv)))) <-> In f (p_asserts p) \/ In f (asserts k)) /\
    (forall v d, In (v, d) (p_doms (fst (run k (p, sv)))) -> In (v, d) (p_doms p) \/ d = dom0 (vty v) /\ alloc i <= vid v < alloc j) /\
    incl (p_doms p) (p_doms (fst (run k (p, sv)))).
  Proof.
    induction 1 as [|o k Ho Hk IH]; intros p sv.
    - split; [reflexivity|]. split; [reflexivity|]. split; [reflexivity|]. split; [intros f; cbn; tauto|]. split; [cbn; auto|]. intros x Hx; exact Hx.
    - destruct o; cbn [local_op] in Ho; try contradiction; cbn [problems declared_vars flat_map app run fold_left p_step asserts].
      + (* new *) destruct (IH p sv) as (A1 & A2 & A3 & A4 & A5 & A6). repeat (split; [assumption|]). exact A6.
      + destruct Ho as [-> Hv]. destruct (IH (declare v p) sv) as (A1 & A2 & A3 & A4 & A5 & A6). split; [exact A1|]. split; [exact A2|]. split; [exact A3|].
        split; [intros f; rewrite (A4 f), declare_asserts; apply iff_refl|]. split; [|intros x Hx; apply A6, declare_incl, Hx].
        intros w d Hw. destruct (A5 w d Hw) as [X|X]; auto. apply declare_doms in X. destruct X as [X|X]; auto. injection X as -> ->. right; auto.
      + destruct (IH (add_assert f p) sv) as (A1 & A2 & A3 & A4 & A5 & A6). repeat (split; [assumption|]).
        split; [|exact (conj A5 A6)]. intros g. rewrite (A4 g). cbn [add_assert p_asserts]. rewrite in_app_iff. cbn [In]. unfold asserts. tauto.
  Qed.

  (** ** Scripts *)
  Section Vals.
  Variable V : nat -> value.
  Definition matchV (ds : list var) (rho : env) : Prop := forall i v, nth_error ds i = Some v -> varval v rho = V i.
  Definition good (ds : list var) (p : problem) (rho : env) : Prop :=
    well_typed rho /\ matchV ds rho /\ (forall v d, In (v, d) (p_doms p) -> d (rho v)) /\ forall f, In f (p_asserts p) -> dF f rho /\ hd f rho.
  Definition fresh0 (s : drv) (rho : env) : Prop := forall v, alloc (d_next s) <= vid v -> vty v = INTEGER \/ vty v = BINARY -> rho v = 0%R.
  Definition frame (s : drv) (ds : list var) (p : problem) (C : Prop) : Prop :=
    (forall v d, In (v, d) (p_doms p) -> vid v < alloc (d_next s)) /\ (forall f, In f (p_asserts p) -> occF (Bs s) (As s) f) /\
    (forall rho, good ds p rho -> C) /\ (C -> exists rho, good ds p rho /\ fresh0 s rho).
  Definition cnj (F : list Prop) : Prop := forall P, In P F -> P.

  Lemma frame_equiv s ds p C C' : (C <-> C') -> frame s ds p C -> frame s ds p C'.
  Proof. intros H (A1 & A2 & A3 & A4). split; auto. split; auto. split; [intros rho G; apply H, (A3 rho G)|]. intros X. apply A4, H, X. Qed.
  Lemma fresh0_ext s s' rho : ext s s' -> fresh0 s rho -> fresh0 s' rho.
  Proof. intros (N & _) H v Hv. apply H. pose proof (al_le _ _ N). lia. Qed.
  Lemma frame_ext s s' ds p C : ext s s' -> frame s ds p C -> frame s' ds p C.
  Proof.
    intros X (A1 & A2 & A3 & A4). pose proof (al_le _ _ (proj1 X)) as L. split; [intros v d H; specialize (A1 v d H); lia|].
    split; [intros f Hf; apply (ext_occF s s'); auto|]. split; auto. intros H. destruct (A4 H) as (rho & G & Z). exists rho. split; auto. apply (fresh0_ext s s'); auto.
  Qed.
  Lemma matchV_agree ds rho rho' : (forall v, In v ds -> rho v = rho' v) -> matchV ds rho -> matchV ds rho'.
  Proof. intros H K i v Hi. rewrite <- (K i v Hi). apply varval_eq. symmetry. apply H. eapply nth_error_In; eauto. Qed.
  Lemma occ_agree (B A : var -> Prop) f rho rho' : occF B A f -> (forall v, A v -> rho v = rho' v) -> dF f rho /\ hd f rho -> dF f rho' /\ hd f rho'.
  Proof.
    intros Ho H [D1 H1]. assert (Ag : forall v, In v (fvF f) -> rho v = rho' v) by (intros v Hv; apply H, (proj2 (occ_fv B) f A Ho v Hv)).
    split; [apply (proj2 (def_agree M stdD) f rho rho' Ag D1)|apply (holds_agree M f rho rho' Ag); auto].
  Qed.

  Lemma frame_step s s' ds p p' (C N : Prop) cs : ext s s' -> (forall v, In v ds -> vid v < alloc (d_next s)) ->
    (forall v d, In (v, d) (p_doms p') -> In (v, d) (p_doms p) \/ d = dom0 (vty v) /\ alloc (d_next s) <= vid v < alloc (d_next s')) -> incl (p_doms p) (p_doms p') ->
    (forall f, In f (p_asserts p') <-> In f (p_asserts p) \/ In f cs) -> (forall f, In f cs -> occF (Bs s') (As s') f) ->
    (forall rho, good ds p' rho -> N) ->
    (N -> forall rho, good ds p rho -> exists rho', upto s rho rho' /\ keeps rho rho' /\ forall f, In f cs -> dF f rho' /\ hd f rho') ->
    frame s ds p C -> frame s' ds p' (C /\ N).
  Proof.
    intros X Hd D1 D2 As1 Oc Ha Hb (A1 & A2 & A3 & A4). pose proof (al_le _ _ (proj1 X)) as L.
    split; [intros v d H; destruct (D1 v d H) as [Y|[_ Y]]; [specialize (A1 v d Y); lia|lia]|].
    split; [intros f Hf; apply As1 in Hf; destruct Hf as [Hf|Hf]; auto; apply (ext_occF s s'); auto|]. split.
    - intros rho G. split; [|apply (Ha rho G)]. apply (A3 rho). destruct G as (G1 & G2 & G3 & G4). split; auto. split; auto.
      split; [intros v d H; apply G3; auto|]. intros f Hf. apply G4, As1. auto.
    - intros [HC HN]. destruct (A4 HC) as (rho & G & Z). destruct (Hb HN rho G) as (rho' & U & K & Cs). destruct G as (G1 & G2 & G3 & G4).
      assert (W : well_typed rho') by (intros v; apply K, G1).
      exists rho'. split; [|intros v Hv Ty; rewrite (U v) by tauto; apply Z; auto; lia]. split; auto.
      split; [apply (matchV_agree ds rho); auto; intros v Hv; symmetry; apply U; left; apply Hd; auto|]. split.
      + intros v d H. destruct (D1 v d H) as [Y|[-> Y]].
        * rewrite (U v) by (left; apply (A1 v d Y)). apply G3, Y.
        * pose proof (W v) as Tv. destruct (vty v) eqn:Ty; cbn [dom0 typed_val] in *; auto.
          -- rewrite (U v) by auto. rewrite (Z v) by (auto; lia). lra.
          -- rewrite (U v) by auto. rewrite (Z v) by (auto; lia). lra.
          -- destruct Tv as [->| ->]; lra.
      + intros f Hf. apply As1 in Hf. destruct Hf as [Hf|Hf]; auto. apply (occ_agree (Bs s) (As s) f rho rho'); auto. intros v Hv. apply (upto_As s); auto.
  Qed.
  Lemma nth_last {X} (l : list X) a i b : nth_error (l ++ [a]) i = Some b -> nth_error l i = Some b \/ i = length l /\ b = a.
  Proof.
    intros H. destruct (Nat.lt_ge_cases i (length l)) as [L|L]; [rewrite nth_error_app1 in H; auto|]. rewrite nth_error_app2 in H by auto.
    destruct (i - length l) as [|j] eqn:Ej; cbn in H; [injection H as <-; right; split; auto; lia|]. destruct j; discriminate.
  Qed.
  Lemma matchV_app ds v rho : matchV (ds ++ [v]) rho <-> matchV ds rho /\ varval v rho = V (length ds).
  Proof.
    split.
    - intros H. split; [|apply H; rewrite nth_error_app2, Nat.sub_diag; auto]. intros i w Hi. apply H. rewrite nth_error_app1; auto. apply nth_error_Some. congruence.
    - intros [H1 H2] i w Hi. apply nth_last in Hi. destruct Hi as [Hi|[-> ->]]; auto.
  Qed.
  Lemma frame_decl s s' ds p C v : ext s s' -> alloc (d_next s) <= vid v < alloc (d_next s') -> (forall v, In v ds -> vid v < alloc (d_next s)) ->
    typed_val (vty v) (enc (V (length ds))) -> kind_ok v (V (length ds)) -> frame s ds p C -> frame s' (ds ++ [v]) p C.
  Proof.
    intros X Hv Hd Tv Kv (A1 & A2 & A3 & A4). pose proof (al_le _ _ (proj1 X)) as L. split; [intros w d H; specialize (A1 w d H); lia|].
    split; [intros f Hf; apply (ext_occF s s'); auto|]. split.
    - intros rho (G1 & G2 & G3 & G4). apply (A3 rho). apply matchV_app in G2. exact (conj G1 (conj (proj1 G2) (conj G3 G4))).
    - intros H. destruct (A4 H) as (rho & (G1 & G2 & G3 & G4) & Z). exists (upd1 v (V (length ds)) rho).
      assert (Ot : forall w, vid w < alloc (d_next s) -> rho w = upd1 v (V (length ds)) rho w) by (intros w Hw; symmetry; apply upd1_other; intros ->; lia).
      split; [split; [|split; [|split]]|].
      + intros w. unfold upd1. destruct (var_eqb w v) eqn:E; [apply var_eqb_eq in E; subst w; auto|apply G1].
      + apply matchV_app. split; [apply (matchV_agree ds rho); auto|]. apply varval_enc; auto. apply upd1_same.
      + intros w d Hw. rewrite <- (Ot w) by apply (A1 w d Hw). apply G3, Hw.
      + intros f Hf. apply (occ_agree (Bs s) (As s) f rho); auto. intros w (Hw & _). auto.
      + intros w Hw Ty. rewrite upd1_other by (intros ->; lia). apply Z; auto. lia.
  Qed.
  Lemma frame_dom s ds p p' (C N : Prop) v d : frame s ds p C -> (forall w d', In (w, d') (p_doms p') <-> In (w, d') (p_doms p) \/ (w, d') = (v, d)) ->
    p_asserts p' = p_asserts p -> vid v < alloc (d_next s) -> (forall rho, well_typed rho -> matchV ds rho -> (d (rho v) <-> N)) -> frame s ds p' (C /\ N).
  Proof.
    intros (A1 & A2 & A3 & A4) D1 E1 Hv HN. split; [intros w d' H; apply D1 in H; destruct H as [H|H]; [apply (A1 w d' H)|injection H as -> _; auto]|].
    split; [intros f Hf; rewrite E1 in Hf; auto|]. split.
    - intros rho (G1 & G2 & G3 & G4). split; [|apply (HN rho G1 G2), G3, D1; auto]. apply (A3 rho). split; auto. split; auto. split; [intros w d' H; apply G3, D1; auto|]. rewrite <- E1. exact G4.
    - intros [HC X]. destruct (A4 HC) as (rho & (G1 & G2 & G3 & G4) & Z). exists rho. split; auto. split; auto. split; auto.
      split; [|rewrite E1; exact G4]. intros w d' H. apply D1 in H. destruct H as [H|H]; [apply (G3 w d' H)|]. injection H as -> ->. apply (HN rho G1 G2), X.
  Qed.
  Lemma cnj_cons P F : cnj (P :: F) <-> cnj F /\ P.
  Proof. unfold cnj. split; [intros H; split; [intros Q HQ; apply H; right; auto|apply H; left; auto]|]. intros [H1 H2] Q [<-|HQ]; [exact H2|apply (H1 Q HQ)]. Qed.

  (** The domain of a declared symbol *)
  Lemma dom_fact v so bd rho x : vty v = sort_type so -> well_typed rho -> varval v rho = x -> of_sort so x ->
    (match bd with Some (l, u) => between l u | None => dom0 (vty v) end (rho v) <-> in_domain so bd x).
  Proof.
    intros Tv W E S0. assert (Er : rho v = enc x) by (rewrite <- E; symmetry; apply enc_varval, W). rewrite Er. destruct bd as [[l u]|]; cbn [in_domain fst snd].
    - destruct x; apply iff_refl.
    - rewrite Tv. destruct so, x as [r|b]; cbn in *; try tauto; try (destruct b; split; auto; lra). split; auto. intros _. destruct S0 as [->| ->]; lra.
  Qed.
  Definition dcl (v : var) (bd : option (dbl * dbl)) : cop := match bd with None => ODeclare v true | Some (l, u) => ODeclareDom v l u true end.
  Lemma dcl_step v bd p sv : (forall d, ~ In (v, d) (p_doms p)) -> exists p', run [ONew v; dcl v bd] (p, sv) = (p', sv) /\
    (forall w d', In (w, d') (p_doms p') <-> In (w, d') (p_doms p) \/ (w, d') = (v, match bd with Some (l, u) => between l u | None => dom0 (vty v) end)) /\
    p_asserts p' = p_asserts p /\ problems [ONew v; dcl v bd] (p, sv) = [] /\ declared_vars [ONew v; dcl v bd] = [v].
  Proof.
    intros Nv. assert (Nm : mem_var v (map fst (p_doms p)) = false).
    { apply Bool.not_true_is_false. intros X. apply mem_var_In in X. apply in_map_iff in X. destruct X as ([w d] & <- & X). apply (Nv d X). }
    destruct bd as [[l u]|]; cbn [dcl].
    - eexists. split; [reflexivity|]. split; [|split; [|split; reflexivity]].
      + intros w d'. unfold set_domain, declare. rewrite Nm. cbn [p_doms]. rewrite map_app, in_app_iff. cbn [map fst]. rewrite (proj2 (var_eqb_eq v v) eq_refl). cbn [In].
        assert (Em : map (fun q : var * (R -> Prop) => if var_eqb v (fst q) then (v, between l u) else q) (p_doms p) = p_doms p).
        { rewrite <- (map_id (p_doms p)) at 2. apply map_ext_in. intros [z dz] Hz. cbn [fst]. destruct (var_eqb v z) eqn:Ez; auto. apply var_eqb_eq in Ez. subst z. destruct (Nv dz Hz). }
        rewrite Em. split; [intros [H|[H|[]]]; auto|intros [H|H]; auto].
      + cbn. apply declare_asserts.
    - eexists. split; [reflexivity|]. split; [|split; [|split; reflexivity]].
      + intros w d'. cbn [p_step fst snd]. unfold declare. rewrite Nm. cbn [p_doms]. rewrite in_app_iff. cbn [In]. split; [intros [H|[H|[]]]; auto|intros [H|H]; auto].
      + apply declare_asserts.
  Qed.

  (** ** Invariant *)
  Definition PSc (t : sterm) : Prop := forall s r tr, el t s = (Val r, tr) -> d_scope (snd r) = d_scope s.
  Lemma elabs_sc l : Forall PSc l -> forall s r tr, elabs el l s = (Val r, tr) -> d_scope (snd r) = d_scope s.
  Proof.
    induction 1 as [|a l Ha Hl IH]; intros s r tr E; cbn [elabs] in E; ub E; auto.
    cbn [snd]. rewrite (IH _ _ _ H0). apply (Ha _ _ _ H).
  Qed.
  Lemma elab_sc t : PSc t.
  Proof.
    induction t using sterm_ind2; intros s r tr E; cbn [elab] in E.
    1, 2: (apply ret_val in E; destruct E as [-> _]; auto).
    - destruct (assoc x (d_scope s)); [|discriminate]. apply ret_val in E. destruct E as [-> _]. auto.
    - apply ret_val in E; destruct E as [-> _]; auto.
    - apply ret_val in E; destruct E as [-> _]; auto.
    - apply bind_val in E. destruct E as (p & u1 & u2 & E1 & E2 & ->). apply bind_val in E2. destruct E2 as (q & u3 & u4 & E2 & E3 & ->).
      assert (snd r = snd q) as ->.
      { destruct (fst p), (fst q); try discriminate; [apply bind_val in E3; destruct E3 as (g & ? & ? & _ & E3 & _)|]; apply ret_val in E3; destruct E3 as [-> _]; auto. }
      rewrite (IHt2 _ _ _ E2). apply (IHt1 _ _ _ E1).
    - ub E. cbn [snd]. rewrite (IHt2 _ _ _ H0). apply (IHt1 _ _ _ H).
    - ub E. cbn [snd]. eapply elabs_sc; eauto.
    - ub E. cbn [snd]. eapply elabs_sc; eauto.
    - ub E. cbn [snd]. eapply elabs_sc; eauto.
    - ub E. cbn [snd]. eapply IHt; eauto.
    - ub E. cbn [snd]. rewrite (IHt2 _ _ _ H0). apply (IHt1 _ _ _ H).
    - apply bind_val in E. destruct E as (p & t1' & t2' & E1 & E2 & ->). apply bind_val in E2. destruct E2 as (q & t3' & t4 & E2 & E3 & ->).
      apply bind_val in E3. destruct E3 as (u & t5 & t6 & E3 & E4 & ->). apply bind_val in E4. destruct E4 as (g & t7 & t8 & E4 & E5 & ->).
      assert (snd r = snd u) as -> by (destruct (fst q), (fst u); try discriminate; apply ret_val in E5; destruct E5 as [-> _]; auto).
      rewrite (IHt3 _ _ _ E3), (IHt2 _ _ _ E2). apply (IHt1 _ _ _ E1).
    - destruct (reg_binders alloc bs s) as [q s1] eqn:Er. ub E. cbn [snd]. auto.
    - ub E. cbn [snd]. auto.
    - ub E. cbn [snd]. eapply IHt; eauto.
    - apply bind_val in E. destruct E as (p & t1' & t2' & E1 & E2 & ->). apply bind_val in E2. destruct E2 as (q & t3' & t4 & E2 & E3 & ->).
      assert (snd r = snd q) as ->. { destruct (fst q); [apply ret_val in E3; destruct E3 as [-> _]; auto|]. ub E3; auto. }
      rewrite (elabs_sc _ H _ _ _ E2). apply (IHt _ _ _ E1).
    - ub E. cbn [snd]. eapply IHt; eauto.
    - ub E. cbn [snd]. rewrite (IHt2 _ _ _ H0). apply (IHt1 _ _ _ H).
    - apply bind_val in E. destruct E as (p & t1' & t2' & E1 & E2 & ->). destruct (assoc f (d_funs (snd p))); [|discriminate]. ub E2. cbn [snd]. eapply elabs_sc; eauto.
  Qed.

  Definition st0 : problem * list problem := (p_empty, []).
  Definition frames s ds (st : problem * list problem) (F : list Prop) (Z : list (list Prop)) (CP : list problem) (CF : list (list Prop)) : Prop :=
    frame s ds (fst st) (cnj F) /\ Forall2 (fun p F => frame s ds p (cnj F)) (snd st) Z /\ Forall2 (fun p F => frame s ds p (cnj F)) CP CF.
  Definition bel s (ds : list var) : Prop := forall v, In v ds -> vid v < alloc (d_next s).
  Definition Inv (s : drv) (ss : sstate) (ds : list var) (st : problem * list problem) (CP : list problem) (CF : list (list Prop)) : Prop :=
    SInv s /\ length ds = ss_count ss /\ bel s ds /\
    (forall rho, well_typed rho -> matchV ds rho -> RelS s (ss_env ss) rho /\ FR s (ss_funs ss) (ss_fdef ss) rho) /\
    frames s ds st (ss_facts ss) (ss_saved ss) CP CF.
  Lemma bel_ext s s' ds : ext s s' -> bel s ds -> bel s' ds.
  Proof. intros X H v Hv. pose proof (al_le _ _ (proj1 X)). specialize (H v Hv). lia. Qed.

  Lemma micro_step s s' ds p p' sv F (N : Prop) Z CP CF cs : ext s s' -> bel s ds ->
    (forall v d, In (v, d) (p_doms p') -> In (v, d) (p_doms p) \/ d = dom0 (vty v) /\ alloc (d_next s) <= vid v < alloc (d_next s')) -> incl (p_doms p) (p_doms p') ->
    (forall f, In f (p_asserts p') <-> In f (p_asserts p) \/ In f cs) -> (forall f, In f cs -> occF (Bs s') (As s') f) ->
    (forall rho, good ds p' rho -> N) ->
    (N -> forall rho, good ds p rho -> exists rho', upto s rho rho' /\ keeps rho rho' /\ forall f, In f cs -> dF f rho' /\ hd f rho') ->
    frames s ds (p, sv) F Z CP CF -> frames s' ds (p', sv) (N :: F) Z CP CF.
  Proof.
    intros X Hd D1 D2 As1 Oc Ha Hb (F1 & F2 & F3). split; [|split].
    - apply (frame_equiv s' ds p' (cnj F /\ N)); [symmetry; apply cnj_cons|]. apply (frame_step s s' ds p p' (cnj F) N cs); auto.
    - eapply f2_imp; [|exact F2]. intros a b _. apply frame_ext; auto.
    - eapply f2_imp; [|exact F3]. intros a b _. apply frame_ext; auto.
  Qed.
  Lemma frames_eqv s ds st F F' Z CP CF : (cnj F <-> cnj F') -> frames s ds st F Z CP CF -> frames s ds st F' Z CP CF.
  Proof. intros H (F1 & F2). split; auto. eapply frame_equiv; eauto. Qed.
  Lemma cnj_true F : cnj (True :: F) <-> cnj F.
  Proof. rewrite cnj_cons. tauto. Qed.
  Lemma micro_decl s s' ds st F Z CP CF v so bd p' : ext s s' -> bel s ds -> alloc (d_next s) <= vid v < alloc (d_next s') -> vty v = sort_type so ->
    of_sort so (V (length ds)) -> run [ONew v; dcl v bd] st = p' -> frames s ds st F Z CP CF ->
    frames s' (ds ++ [v]) p' (in_domain so bd (V (length ds)) :: F) Z CP CF /\ problems [ONew v; dcl v bd] st = [] /\ declared_vars [ONew v; dcl v bd] = [v] /\
    snd p' = snd st /\ p_asserts (fst p') = p_asserts (fst st).
  Proof.
    intros X Hd Hv Tv So <- (F1 & F2 & F3). destruct st as [p sv]. cbn [fst snd] in *. destruct (of_sort_typed v so _ Tv So) as [Ty Kv].
    destruct (dcl_step v bd p sv) as (p2 & E1 & D1 & A1 & P1 & V1). { intros d Hd'. destruct F1 as (B1 & _). specialize (B1 v d Hd'). lia. }
    rewrite E1. cbn [fst snd]. split; [|exact (conj P1 (conj V1 (conj eq_refl A1)))]. split; [|split]; cbn [fst snd].
    - apply (frame_equiv s' (ds ++ [v]) p2 (cnj F /\ in_domain so bd (V (length ds)))); [symmetry; apply cnj_cons|].
      apply (frame_dom s' (ds ++ [v]) p p2 (cnj F) (in_domain so bd (V (length ds))) v _ (frame_decl s s' ds p (cnj F) v X Hv Hd Ty Kv F1) D1 A1); [lia|].
      intros rho W Mt. apply matchV_app in Mt. apply dom_fact; auto. apply Mt.
    - eapply f2_imp; [|exact F2]. intros a b _. apply frame_decl; auto.
    - eapply f2_imp; [|exact F3]. intros a b _. apply frame_decl; auto.
  Qed.
  Lemma upto_match s ds rho rho' : bel s ds -> upto s rho rho' -> matchV ds rho -> matchV ds rho'.
  Proof. intros Hd U. apply matchV_agree. intros v Hv. symmetry. apply U. left. apply Hd, Hv. Qed.
  Lemma same_funs s s' FN FD rho : d_funs s' = d_funs s -> FR s FN FD rho -> FR s' FN FD rho.
  Proof. intros H K f fd E. apply K. rewrite <- H. exact E. Qed.
  Lemma same_scope s s' E rho : d_scope s' = d_scope s -> RelS s E rho -> RelS s' E rho.
  Proof. intros H K x v Hx. apply K. rewrite <- H. exact Hx. Qed.

  Lemma SInv_same s s' : d_scope s' = d_scope s -> d_funs s' = d_funs s -> d_next s' = d_next s -> d_notes s' = d_notes s -> SInv s -> SInv s'.
  Proof.
    destruct s as [a1 b1 c1 o1 e1], s' as [a2 b2 c2 o2 e2]. cbn [d_scope d_funs d_next d_notes]. intros -> -> -> -> [A1 A2 A3 A4 A5]. constructor; [exact A1|exact A2|exact A3|exact A4|exact A5].
  Qed.

  (** what a command adds to the history *)
  Definition adds (s s' : drv) (k : list cop) : Prop := rev (d_ops s') = rev (d_ops s) ++ k.
  Definition state (s : drv) ss CF : Prop :=
    Inv s ss (declared_vars (rev (d_ops s))) (run (rev (d_ops s)) st0) (problems (rev (d_ops s)) st0) CF.
  Lemma state_adds s s' k ss' CF' st ds CP : adds s s' k -> st = run (rev (d_ops s)) st0 -> ds = declared_vars (rev (d_ops s)) -> CP = problems (rev (d_ops s)) st0 ->
    Inv s' ss' (ds ++ declared_vars k) (run k st) (CP ++ problems k st) CF' -> state s' ss' CF'.
  Proof. intros H -> -> -> HI. unfold state. rewrite H, declared_app, run_app, problems_app. exact HI. Qed.

  Lemma elab_locals s s1 tm tr t cs : el t s = (Val (tm, s1), tr) -> strct s s1 cs ->
    exists k, adds s s1 k /\ Forall (local_op (d_next s) (d_next s1)) k /\ (forall f, In f (asserts k) <-> In f cs).
  Proof.
    intros E (_ & _ & _ & A & _). destruct (elab_em t _ _ _ E) as (_ & k & Ek & Fk). cbn [snd] in *. exists (rev k). split; [unfold adds; rewrite Ek, rev_app_distr; auto|].
    split; [apply Forall_rev; auto|]. intros f. rewrite asserts_rev. rewrite Ek in A. unfold asserts in A at 1. rewrite flat_map_app in A. apply app_inv_tail in A. unfold asserts. rewrite A. apply iff_refl.
  Qed.

  Lemma cmd_declare x so bd s s' ss CF : s' = snd (declare_var alloc x so bd s) -> of_sort so (V (ss_count ss)) -> state s ss CF ->
    state s' (s_step M stdD V (KDeclare x so bd) ss) CF.
  Proof.
    intros -> So (HI & Ln & Hd & HR & HF). destruct ss as [k E FN FD F Z]. cbn [ss_count ss_env ss_funs ss_fdef ss_facts ss_saved s_step] in *.
    unfold declare_var, register. cbn [snd]. set (v := mkVar (alloc (d_next s)) (sort_type so)).
    set (s1 := emit (match bd with None => ODeclare v true | Some (l, u) => ODeclareDom v l u true end) _).
    destruct (step_reg s s1 x so v eq_refl eq_refl eq_refl eq_refl eq_refl HI) as (HI1 & EX & Av & R1).
    assert (Hv : alloc (d_next s) <= vid v < alloc (d_next s1)) by (split; [auto|apply (Hal (d_next s)); cbn; lia]).
    rewrite <- Ln in So. destruct (micro_decl s s1 _ _ F Z _ CF v so bd _ EX Hd Hv eq_refl So eq_refl HF) as (F' & P' & D' & _).
    eapply (state_adds s s1 [ONew v; dcl v bd]); try reflexivity; [unfold adds, s1, emit; cbn [d_ops rev]; rewrite <- app_assoc; destruct bd as [[l u]|]; reflexivity|].
    rewrite P', D', app_nil_r. split; [exact HI1|]. split; [cbn [ss_count]; rewrite app_length; cbn; lia|]. split.
    { intros w Hw. apply in_app_iff in Hw. destruct Hw as [Hw|[<-|[]]]; [apply (bel_ext s s1 _ EX Hd w Hw)|apply Av]. }
    cbn [ss_env ss_funs ss_fdef ss_facts ss_saved]. rewrite <- Ln. split; [|exact F']. intros rho W Mt. apply matchV_app in Mt. destruct Mt as [M1 M2]. destruct (HR rho W M1) as [G1 G2].
    split; [|apply (same_funs s s1); auto]. destruct (of_sort_typed v so _ eq_refl So) as [Ty Kv]. apply R1; auto. rewrite <- M2. symmetry. apply enc_varval, W.
  Qed.
  Lemma cmd_assert t s s' tr ss CF : command fpow n alloc (KAssert t) s = (Val s', tr) -> ok tr -> plain_term t -> Forall kept (d_notes s') ->
    defd M (ss_funs ss) stdD (ss_fdef ss) t (ss_env ss) -> state s ss CF -> state s' (s_step M stdD V (KAssert t) ss) CF.
  Proof.
    intros E Ht Hp Hk Df (HI & Ln & Hd & HR & HF). destruct ss as [k E0 FN FD F Z]. cbn [ss_count ss_env ss_funs ss_fdef ss_facts ss_saved s_step] in *.
    cbn [command] in E. apply bind_val in E. destruct E as ([tm s1] & t1 & t2 & E1 & E2 & ->). apply bind_val in E2. destruct E2 as (f & t3 & t4 & E2 & E3 & ->).
    apply ret_val in E3. destruct E3 as [E3 ->]. apply getF_val in E2. destruct E2 as [Etm ->]. cbn [fst snd] in *. subst tm s'. cbn [app] in Ht. rewrite app_nil_r in Ht.
    destruct (elab_ok t s (TmF f) s1 t1 HI E1 Ht Hp Hk) as (cs & S1 & Of & _ & Sm). specialize (Sm FN FD E0 Df).
    destruct (elab_locals s s1 _ _ t cs E1 S1) as (k1 & K1 & L1 & A1). destruct S1 as (EX & Ef & HI1 & _ & Oc).
    set (s2 := assert_f f s1). assert (L2 : Forall (local_op (d_next s) (d_next s1)) (k1 ++ [OAssert f])) by (apply Forall_app; split; auto; constructor; [exact I|constructor]).
    set (st := run (rev (d_ops s)) st0) in *. destruct st as [p sv] eqn:Est. destruct (locals_run _ _ _ L2 p sv) as (P1 & P2 & P3 & P4 & P5 & P6).
    apply (state_adds s s2 (k1 ++ [OAssert f]) _ _ (p, sv) (declared_vars (rev (d_ops s))) (problems (rev (d_ops s)) st0)); [unfold adds, s2, assert_f, emit; cbn [d_ops rev]; rewrite K1, app_assoc; reflexivity|auto|reflexivity|reflexivity|].
    rewrite P1, P2, !app_nil_r. set (q := run (k1 ++ [OAssert f]) (p, sv)) in *. clearbody q. destruct q as [p' sv']. cbn [fst snd] in *. subst sv'.
    split; [apply (SInv_same s1 s2); auto|]. cbn [ss_count ss_env ss_funs ss_fdef ss_facts ss_saved]. split; [exact Ln|]. split; [apply (bel_ext s s1); auto|]. split.
    { intros rho W Mt. destruct (HR rho W Mt) as [G1 G2]. split; [apply (same_scope s s2); auto; apply (elab_sc t s _ _ E1)|apply (same_funs s s2); auto]. }
    assert (As' : forall g, In g (asserts (k1 ++ [OAssert f])) <-> In g (cs ++ [f])).
    { intros g. unfold asserts. rewrite flat_map_app, !in_app_iff. cbn [flat_map app]. split; intros [H|H]; auto; left; apply A1; auto. }
    apply (micro_step s s2 _ p p' sv F (den M FN t E0 = VB true) Z _ CF (cs ++ [f])); auto.
    - intros g. rewrite (P4 g). rewrite (As' g). apply iff_refl.
    - intros g Hg. apply in_app_iff in Hg. destruct Hg as [Hg|[<-|[]]]; [apply Oc, Hg|exact Of].
    - intros rho (G1 & G2 & G3 & G4). destruct (HR rho G1 G2) as [R1 R2]. destruct (Sm rho R1 R2 I) as [S1 _].
      assert (Gf : forall g, In g (cs ++ [f]) -> hd g rho) by (intros g Hg; apply G4, P4; right; apply As'; auto).
      destruct S1 as [[V1 _] _]. { intros g Hg. apply Gf, in_app_iff. auto. } rewrite <- V1. cbn [tval]. f_equal. apply decide_true. apply Gf, in_app_iff. right; left; auto.
    - intros HN rho (G1 & G2 & G3 & G4). destruct (HR rho G1 G2) as [R1 R2]. destruct (Sm rho R1 R2 I) as [_ (r' & U & Kp & Cs)]. exists r'. split; auto. split; auto.
      intros g Hg. apply in_app_iff in Hg. destruct Hg as [Hg|[<-|[]]]; auto.
      destruct (HR r' (fun v => Kp v (G1 v)) (upto_match s _ rho r' Hd U G2)) as [R1' R2']. destruct (Sm r' R1' R2' I) as [S1 _].
      destruct S1 as [[V1 D1] _]. { intros h Hh. apply Cs, Hh. } split; [exact D1|]. rewrite HN in V1. cbn [tval] in V1. injection V1 as V1. apply (proj1 (decide_true _) V1).
  Qed.

  Lemma cmd_const f so t s s' tr ss CF : command fpow n alloc (KDefine f [] so t) s = (Val s', tr) -> ok tr -> plain_term t -> Forall kept (d_notes s') ->
    defd M (ss_funs ss) stdD (ss_fdef ss) t (ss_env ss) -> of_sort so (V (ss_count ss)) ->
    state s ss CF -> state s' (s_step M stdD V (KDefine f [] so t) ss) CF.
  Proof.
    intros E Ht Hp Hk Df So (HI & Ln & Hd & HR & HF). destruct ss as [k E0 FN FD F Z]. cbn [ss_count ss_env ss_funs ss_fdef ss_facts ss_saved s_step] in *.
    cbn [command reg_params] in E. apply bind_val in E. destruct E as ([tm s1] & t1 & t2 & E1 & E2 & ->). cbn [fst snd] in E2. apply Forall_app in Ht. destruct Ht as [O1 O2].
    unfold declare_var, register in E2. cbn [with_scope d_scope d_funs d_next d_ops d_notes] in E2. set (v := mkVar (alloc (d_next s1)) (sort_type so)) in *.
    set (s2 := with_scope (d_scope s) s1). set (s3 := emit (ODeclare v true) (mkDrv ((f, v) :: d_scope s2) (d_funs s2) (S (d_next s2)) (ONew v :: d_ops s2) (d_notes s2))).
    destruct (type_ok tm (vty v)) eqn:Tk; cbn [negb] in E2; [|discriminate].
    assert (Eg : exists g, s' = assert_f g s3 /\ match tm with TmF h => g = mk_feq (FVar v) h /\ t2 = [] | TmE e => mk_relm fpow n REq (EVar v) e = (Val g, t2) end).
    { clear - E2. destruct tm as [e|h]; [apply bind_val in E2; destruct E2 as (g & t3 & t4 & E2 & E3 & ->)|rename E2 into E3]; apply ret_val in E3; destruct E3 as [-> ->].
      - exists g. rewrite app_nil_r. split; auto.
      - exists (mk_feq (FVar v) h). auto. }
    destruct Eg as (g & -> & Eg). set (s4 := assert_f g s3).
    assert (Hk1 : Forall kept (d_notes s1)) by exact Hk.
    destruct (elab_ok t s tm s1 t1 HI E1 O1 Hp Hk1) as (cs & S1 & Of & _ & Sm). specialize (Sm FN FD E0 Df).
    destruct (elab_locals s s1 _ _ t cs E1 S1) as (k1 & K1 & L1 & A1). destruct S1 as (EX & Ef & HI1 & _ & Oc).
    assert (Esc : d_scope s1 = d_scope s) by apply (elab_sc t s _ _ E1).
    assert (HI2 : SInv s2) by (apply (SInv_same s1 s2); auto).
    destruct (step_reg s2 s3 f so v eq_refl eq_refl eq_refl eq_refl eq_refl HI2) as (HI3 & EX3 & Av & R1).
    assert (Hv : alloc (d_next s2) <= vid v < alloc (d_next s3)) by (split; [auto|apply (Hal (d_next s2)); cbn; lia]).
    set (st := run (rev (d_ops s)) st0) in *. destruct st as [p sv] eqn:Est. destruct (locals_run _ _ _ L1 p sv) as (P1 & P2 & P3 & P4 & P5 & P6).
    set (ds := declared_vars (rev (d_ops s))) in *. set (CP := problems (rev (d_ops s)) st0) in *.
    apply (state_adds s s4 (k1 ++ [ONew v; ODeclare v true; OAssert g]) _ _ (p, sv) ds CP);
      [unfold adds, s4, s3, s2, assert_f, emit; cbn [d_ops rev with_scope]; rewrite K1, <- !app_assoc; reflexivity|auto|reflexivity|reflexivity|].
    rewrite declared_app, run_app, problems_app, P1, P2. set (q := run k1 (p, sv)) in *. clearbody q. destruct q as [p1 sv1]. cbn [fst snd] in *. subst sv1. cbn [app].
    (* the let constraints of the term *)
    assert (F1 : frames s2 ds (p1, sv) F Z CP CF).
    { apply (frames_eqv s2 ds (p1, sv) (True :: F)); [apply cnj_true|]. apply (micro_step s s2 ds p p1 sv F True Z CP CF cs); auto.
      - intros h. rewrite (P4 h), (A1 h). apply iff_refl.
      - intros _ rho (G1 & G2 & G3 & G4). destruct (HR rho G1 G2) as [X1 X2]. apply (Sm rho X1 X2 I). }
    assert (Hd2 : bel s2 ds) by (apply (bel_ext s s1 ds EX Hd)).
    (* the symbol *)
    rewrite <- Ln in So. destruct (micro_decl s2 s3 ds (p1, sv) F Z CP CF v so None _ EX3 Hd2 Hv eq_refl So eq_refl F1) as (F2 & Pb & Pd & Psv & Pas).
    destruct (run [ONew v; dcl v None] (p1, sv)) as [p2 sv2] eqn:Er. cbn [fst snd] in Psv, Pas. subst sv2.
    cbn [dcl] in Er, Pb, Pd.
    assert (Er3 : run [ONew v; ODeclare v true; OAssert g] (p1, sv) = (add_assert g p2, sv)).
    { change [ONew v; ODeclare v true; OAssert g] with ([ONew v; ODeclare v true] ++ [OAssert g]). rewrite run_app, Er. reflexivity. }
    assert (Ep3 : problems [ONew v; ODeclare v true; OAssert g] (p1, sv) = []) by reflexivity.
    assert (Ed3 : declared_vars [ONew v; ODeclare v true; OAssert g] = [v]) by reflexivity.
    rewrite Er3, Ep3, Ed3, !app_nil_r.
    assert (EX4 : ext s3 s4) by exact (ext_refl s3).
    assert (Mn : forall rho, good (ds ++ [v]) p2 rho -> means FN t E0 tm rho /\ varval v rho = V (length ds)).
    { intros rho (G1 & G2 & G3 & G4). apply matchV_app in G2. destruct G2 as [G2 G2']. destruct (HR rho G1 G2) as [X1 X2]. split; auto.
      destruct (Sm rho X1 X2 I) as [Y _]. apply Y. intros h Hh. apply G4. rewrite Pas. apply P4. right. apply A1, Hh. }
    split; [apply (SInv_same s3 s4); auto|]. cbn [ss_count ss_env ss_funs ss_fdef ss_facts ss_saved]. split; [rewrite app_length; cbn [length]; lia|]. split; [|split].
    - intros w Hw. apply in_app_iff in Hw. destruct Hw as [Hw|[<-|[]]]; [apply (bel_ext s2 s4 _ EX3 Hd2 w Hw)|apply Av].
    - rewrite <- Ln. intros rho W Mt. apply matchV_app in Mt. destruct Mt as [M1 M2]. destruct (HR rho W M1) as [G1 G2].
      split; [|apply (same_funs s s4); auto]. destruct (of_sort_typed v so _ eq_refl So) as [Ty Kv]. apply (same_scope s3 s4); auto. apply R1; auto. rewrite <- M2. symmetry. apply enc_varval, W.
    - rewrite <- Ln. apply (frames_eqv s4 _ _ ((V (length ds) = den M FN t E0) :: in_domain so None (V (length ds)) :: F)); [rewrite !cnj_cons; tauto|].
      assert (Bd3 : bel s3 (ds ++ [v])).
      { intros w Hw. apply in_app_iff in Hw. destruct Hw as [Hw|[<-|[]]]; [apply (bel_ext s2 s3 _ EX3 Hd2 w Hw)|apply Av]. }
      assert (Of3 : occT (Bs s3) (As s3) tm) by (apply (ext_occT s2 s3); auto).
      assert (Gv : forall rho, good (ds ++ [v]) p2 rho -> dF g rho /\ (hd g rho <-> V (length ds) = den M FN t E0)).
      { intros rho G. destruct (Mn rho G) as [[V1 D1] V2]. rewrite <- V1, <- V2. destruct tm as [e|h]; cbn [tval tdf] in *.
        - assert (Nb : vty v <> BOOLEAN) by (unfold type_ok in Tk; cbn [is_form] in Tk; destruct (vty v); discriminate).
          destruct (mk_relm_ev uf rc fpow n REq (EVar v) e rho g t2 Eg O2 I D1) as [D3 V3]. split; auto. rewrite V3. cbn [relR evalE].
          unfold varval. destruct (vty v); try (now destruct Nb); (split; [intros ->; reflexivity|intros X; injection X as X; exact X]).
        - assert (Nb : vty v = BOOLEAN) by (unfold type_ok in Tk; cbn [is_form] in Tk; destruct (vty v); auto; discriminate).
          destruct Eg as [-> _]. split; [unfold mk_feq; apply d_and; apply d_or; auto; try apply d_not; try exact I; auto|].
          unfold varval. rewrite Nb. pose proof (hdec_feq (FVar v) h rho) as Hf. cbn [holds] in Hf |- *. split.
          + intros X. apply decide_true in X. rewrite X in Hf. symmetry in Hf. apply Bool.eqb_prop in Hf. f_equal. exact Hf.
          + intros X. injection X as X. apply decide_true. rewrite Hf, X. apply Bool.eqb_reflx. }
      apply (micro_step s3 s4 (ds ++ [v]) p2 (add_assert g p2) sv _ _ Z CP CF [g]); auto.
      + cbn [add_assert p_doms]. intros x Hx; exact Hx.
      + intros h. cbn [add_assert p_asserts]. rewrite in_app_iff. apply iff_refl.
      + intros h [<-|[]]. change (occF (Bs s3) (As s3) g). destruct tm as [e|h0]; cbn [occT] in Of3.
        * assert (Nb : vty v <> BOOLEAN) by (unfold type_ok in Tk; cbn [is_form] in Tk; destruct (vty v); discriminate).
          exact (occ_relm M fpow n (Bs s3) (As s3) REq (EVar v) e (conj Av Nb) Of3 g t2 Eg O2).
        * assert (Nb : vty v = BOOLEAN) by (unfold type_ok in Tk; cbn [is_form] in Tk; destruct (vty v); auto; discriminate).
          destruct Eg as [-> _]. assert (Ov : occF (Bs s3) (As s3) (FVar v)) by exact (conj Av Nb).
          unfold mk_feq. apply occ_mk_and; apply occ_mk_or; auto; apply o_not; auto.
      + intros rho (G1 & G2 & G3 & G4). cbn [add_assert p_doms p_asserts] in *.
        assert (G : good (ds ++ [v]) p2 rho) by (split; auto; split; auto; split; auto; intros h Hh; apply G4, in_app_iff; auto).
        apply (Gv rho G). apply G4, in_app_iff. right; left; auto.
      + intros HN rho G. exists rho. split; [intros w _; auto|]. split; [intros w; auto|]. intros h [<-|[]]. destruct (Gv rho G) as [D3 V3]. split; auto. apply V3, HN.
  Qed.

  Lemma cmd_fun f p0 ps so t s s' tr ss CF : command fpow n alloc (KDefine f (p0 :: ps) so t) s = (Val s', tr) -> ok tr -> plain_term t -> has_let t = false ->
    Forall kept (d_notes s') -> state s ss CF -> state s' (s_step M stdD V (KDefine f (p0 :: ps) so t) ss) CF.
  Proof.
    intros E Ht Hp Hl Hk (HI & Ln & Hd & HR & HF). destruct ss as [k E0 FN FD F Z]. cbn [ss_count ss_env ss_funs ss_fdef ss_facts ss_saved s_step] in *.
    set (pl := p0 :: ps) in *. assert (Npl : pl <> []) by discriminate. clearbody pl. cbn [command] in E.
    destruct (reg_params alloc pl s) as [vs s1] eqn:Er. apply bind_val in E. destruct E as ([tm s2] & t1 & t2 & E1 & E2 & ->). cbn [fst snd] in E2. apply Forall_app in Ht. destruct Ht as [O1 O2].
    destruct (reg_params_ok pl s vs s1 HI Er) as (Fv & Tv & Rv). destruct (reg_params_em pl s vs s1 Er) as [Em1 Nt1].
    assert (Nvs : vs <> []). { intros ->. destruct pl; [auto|discriminate]. }
    set (fd := mkFd vs so tm). set (s3 := mkDrv (d_scope s) ((f, fd) :: d_funs s2) (d_next s2) (d_ops s2) (d_notes s2)).
    assert (E3 : s' = s3) by (destruct vs; [congruence|]; apply ret_val in E2; destruct E2 as [-> _]; reflexivity). subst s'.
    destruct Fv as (ND & Iv & EX1 & Ef1 & _ & Ea1 & HI1 & Av).
    destruct (elab_ok t s1 tm s2 t1 HI1 E1 O1 Hp Hk) as (cs & S2 & Of & Nc & Sm). rewrite (Nc Hl) in *. destruct S2 as (EX2 & Ef2 & HI2 & Ea2 & _). cbn [app] in Ea2.
    pose proof (elab_em t s1 _ _ E1) as Em2. cbn [snd] in Em2. destruct (emL_trans s s1 s2 Em1 Em2) as (_ & k1 & Ek & Fk).
    assert (Ak : asserts k1 = []). { rewrite Ea1, Ek in Ea2. unfold asserts in Ea2 at 1. rewrite flat_map_app in Ea2. change (asserts k1 ++ asserts (d_ops s) = [] ++ asserts (d_ops s)) in Ea2. apply app_inv_tail in Ea2. exact Ea2. }
    pose proof (ext_trans s s1 s2 EX1 EX2) as EX. pose proof (al_le _ _ (proj1 EX2)) as L2.
    assert (Pn : forall v, Ps s3 v <-> Ps s v \/ In v vs).
    { intros v. unfold Ps. cbn [s3 d_funs]. rewrite Ef2, Ef1. split.
      - intros (x & [<-|Hx] & Hv); [right; exact Hv|left; exists x; auto].
      - intros [(x & Hx & Hv)|Hv]; [exists x; split; [right|]; auto|exists (f, fd); split; [left|]; auto]. }
    assert (EX3 : ext s s3).
    { destruct EX as (X1 & X2 & X3 & X4). split; [exact X1|]. split; [exact X2|]. split; [exact X3|]. intros v Hv. apply Pn in Hv. destruct Hv as [Hv|Hv]; auto. right. apply Iv in Hv. lia. }
    assert (A3 : forall v, As s2 v -> As s3 v \/ In v vs).
    { intros v (B1 & B2 & B3). destruct (in_dec (fun a b => match var_eqb a b as q return var_eqb a b = q -> {a = b} + {a <> b} with
        | true => fun H => left (proj1 (var_eqb_eq a b) H) | false => fun H => right (fun X => Bool.diff_false_true (eq_trans (eq_sym H) (proj2 (var_eqb_eq a b) X))) end eq_refl) v vs) as [Hv|Hv]; auto.
      left. split; [exact B1|]. split; [exact B2|]. intros X. apply Pn in X. destruct X as [X|X]; auto. apply B3. apply (Ps_funs s s2); [congruence|exact X]. }
    assert (HI3 : SInv s3).
    { split.
      - intros x v Hx. apply (ext_As s s3 v EX3). apply (si_scope s HI x v Hx).
      - intros v Hv. apply (si_b s2 HI2 v Hv).
      - intros v Hv. apply Pn in Hv. destruct Hv as [Hv|Hv]; [|apply Iv in Hv; cbn [s3 d_next]; lia]. apply (si_p s HI) in Hv. pose proof (al_le _ _ (proj1 EX)). cbn [s3 d_next]. lia.
      - intros v Hv X. apply Pn in Hv. destruct Hv as [Hv|Hv].
        + apply (si_pb s2 HI2 v); [apply (Ps_funs s s2); [congruence|exact Hv]|exact X].
        + apply (proj1 (proj2 (ext_As s1 s2 v EX2 (Av v Hv)))). exact X.
      - intros h hd0 [Hh|Hh].
        + injection Hh as <- <-. split; [exact ND|]. apply (occT_mono (Bs s2) (Bs s3) (As s2)); auto.
        + cbn [s3 d_funs] in Hh. rewrite Ef2, Ef1 in Hh. destruct (si_fun s HI h hd0 Hh) as [N1 N2]. split; auto.
          apply (occT_mono (Bs s) (Bs s3) (fun v => As s v \/ In v (fd_params hd0))); [apply EX3| |exact N2]. intros v [X|X]; auto. left. apply (ext_As s s3 v EX3 X). }
    set (st := run (rev (d_ops s)) st0) in *. destruct st as [p sv] eqn:Est.
    destruct (locals_run _ _ (rev k1) (Forall_rev Fk) p sv) as (P1 & P2 & P3 & P4 & P5 & P6).
    set (ds := declared_vars (rev (d_ops s))) in *. set (CP := problems (rev (d_ops s)) st0) in *.
    apply (state_adds s s3 (rev k1) _ _ (p, sv) ds CP); [unfold adds, s3; cbn [d_ops]; rewrite Ek, rev_app_distr; reflexivity|auto|reflexivity|reflexivity|].
    rewrite P1, P2, !app_nil_r. set (q := run (rev k1) (p, sv)) in *. clearbody q. destruct q as [p1 sv1]. cbn [fst snd] in *. subst sv1.
    split; [exact HI3|]. cbn [ss_count ss_env ss_funs ss_fdef ss_facts ss_saved]. split; [exact Ln|]. split; [apply (bel_ext s s3 ds EX3 Hd)|]. split.
    - intros rho W Mt. destruct (HR rho W Mt) as [G1 G2]. split; [apply (same_scope s s3); auto|]. intros h hfd Hh vals Kv Hdf. cbn [s3 d_funs assoc] in Hh.
      destruct (Nat.eqb h f) eqn:Eh.
      + injection Hh as <-. cbn [fd fd_params fd_body] in *. assert (Lv : length vals = length pl) by (rewrite (kinds_length vs vals Kv), <- (map_length vty vs), Tv; apply map_length).
        rewrite (args_env_bindl pl vals E0 Lv) in *.
        assert (Ag : forall v, As s v -> rho v = setv vs vals rho v) by (intros v (B1 & _); symmetry; apply setv_out; intros X; apply Iv in X; lia).
        assert (G2' : FR s1 FN FD (setv vs vals rho)) by (apply (same_funs s s1); auto; apply (FR_agree s FN FD rho _ HI Ag G2)).
        destruct (Sm FN FD _ Hdf (setv vs vals rho) (Rv E0 rho vals G1 Kv) G2' I) as [Y _]. destruct Y as [Y _]; [intros g []|]. exact Y.
      + apply G2; auto. rewrite <- Ef1, <- Ef2. exact Hh.
    - apply (frames_eqv s3 ds (p1, sv) (True :: F)); [apply cnj_true|]. apply (micro_step s s3 ds p p1 sv F True Z CP CF []); auto.
      + intros g. rewrite (P4 g). rewrite asserts_rev, Ak. apply iff_refl.
      + intros g [].
      + intros _ rho _. exists rho. split; [intros w _; auto|]. split; [intros w; auto|]. intros h [].
  Qed.
  Lemma emits_eq o k : forall s, emits k o s = mkDrv (d_scope s) (d_funs s) (d_next s) (repeat o k ++ d_ops s) (d_notes s).
  Proof.
    induction k as [|k IH]; intros s; cbn [emits]; [destruct s; reflexivity|]. rewrite IH. unfold emit. cbn [d_scope d_funs d_next d_ops d_notes]. f_equal.
    change (repeat o (S k) ++ d_ops s) with ((o :: repeat o k) ++ d_ops s). rewrite repeat_cons, <- app_assoc. reflexivity.
  Qed.
  Lemma rev_repeat {X} (o : X) k : rev (repeat o k) = repeat o k.
  Proof. induction k as [|k IH]; [reflexivity|]. cbn [repeat rev]. rewrite IH. symmetry. apply repeat_cons. Qed.
  Lemma emits_adds o k s : adds s (emits k o s) (repeat o k).
  Proof. unfold adds. rewrite emits_eq. cbn [d_ops]. rewrite rev_app_distr, rev_repeat. reflexivity. Qed.
  Lemma pushes_eq k (F : list Prop) : forall Z, pushes k F Z = repeat F k ++ Z.
  Proof. induction k as [|k IH]; intros Z; cbn [pushes]; auto. rewrite IH. change (repeat F (S k) ++ Z) with ((F :: repeat F k) ++ Z). rewrite repeat_cons, <- app_assoc. reflexivity. Qed.
  Lemma run_push k p : forall sv, run (repeat OPush k) (p, sv) = (p, repeat p k ++ sv) /\ problems (repeat OPush k) (p, sv) = [] /\ declared_vars (repeat OPush k) = [].
  Proof.
    induction k as [|k IH]; intros sv; auto. destruct (IH (p :: sv)) as (A & B & C). split; [|split; [exact B|exact C]].
    change (run (repeat OPush k) (p, p :: sv) = (p, (p :: repeat p k) ++ sv)). rewrite A, repeat_cons, <- app_assoc. reflexivity.
  Qed.
  Lemma run_pop s ds CP CF k : forall st F Z, frames s ds st F Z CP CF -> frames s ds (run (repeat OPop k) st) (fst (pops k F Z)) (snd (pops k F Z)) CP CF /\
    problems (repeat OPop k) st = [] /\ declared_vars (repeat OPop k) = [].
  Proof.
    induction k as [|k IH]; intros [p sv] F Z HF; [auto|].
    change (run (repeat OPop (S k)) (p, sv)) with (run (repeat OPop k) (p_step OPop (p, sv))). change (problems (repeat OPop (S k)) (p, sv)) with (problems (repeat OPop k) (p_step OPop (p, sv))).
    change (declared_vars (repeat OPop (S k))) with (declared_vars (repeat OPop k)). cbn [p_step pops]. pose proof HF as (F1 & F2 & F3). cbn [fst snd] in F1, F2. inversion F2; subst.
    - destruct (IH (p, []) F [] HF) as (A & B & C). split; [|auto]. cbn [fst snd]. destruct k; exact A.
    - apply IH. split; [|split]; auto.
  Qed.
  Lemma frames_same s s' ds st F Z CP CF : d_next s' = d_next s -> d_notes s' = d_notes s -> d_funs s' = d_funs s -> frames s ds st F Z CP CF -> frames s' ds st F Z CP CF.
  Proof.
    intros H1 H2 H3 (F1 & F2 & F3).
    assert (X : ext s s').
    { split; [lia|]. split; [intros v; apply (Bs_notes s s' H2)|]. split; [intros v Hv; left; apply (Bs_notes s s' H2), Hv|]. intros v Hv; left; apply (Ps_funs s s' H3), Hv. }
    split; [apply (frame_ext s s'); auto|]. split; [eapply f2_imp; [|exact F2]|eapply f2_imp; [|exact F3]]; intros a b _; apply frame_ext; auto.
  Qed.
  Lemma inv_same s s' ss ss' ds st st' CP CP' CF CF' : d_scope s' = d_scope s -> d_next s' = d_next s -> d_notes s' = d_notes s -> d_funs s' = d_funs s ->
    ss_count ss' = ss_count ss -> ss_env ss' = ss_env ss -> ss_funs ss' = ss_funs ss -> ss_fdef ss' = ss_fdef ss ->
    Inv s ss ds st CP CF -> frames s ds st' (ss_facts ss') (ss_saved ss') CP' CF' -> Inv s' ss' ds st' CP' CF'.
  Proof.
    intros H1 H2 H3 H4 S1 S2 S3 S4 (A1 & A2 & A3 & A4 & _) HF. split; [apply (SInv_same s s'); auto|]. split; [congruence|]. split; [intros v Hv; rewrite H2; auto|].
    split; [|apply (frames_same s s'); auto]. intros rho W Mt. rewrite S2, S3, S4. destruct (A4 rho W Mt) as [X Y]. split; [apply (same_scope s s'); auto|apply (same_funs s s'); auto].
  Qed.

  Definition chk (c : scmd) (ss : sstate) : list (list Prop) := match c with KCheck _ => [ss_facts ss] | _ => [] end.
  Definition defd1 (c : scmd) (s : sstate) : Prop :=
    match c with KDefine _ [] _ t | KAssert t => defd M (ss_funs s) stdD (ss_fdef s) t (ss_env s) | _ => True end.
  Definition sorted1 (c : scmd) (k : nat) : Prop := match c with KDeclare _ so _ | KDefine _ [] so _ => of_sort so (V k) | _ => True end.
  Lemma command_ok c s s' tr ss CF : command fpow n alloc c s = (Val s', tr) -> ok tr -> plain_cmd c -> Forall kept (d_notes s') -> defd1 c ss -> sorted1 c (ss_count ss) ->
    state s ss CF -> state s' (s_step M stdD V c ss) (CF ++ chk c ss).
  Proof.
    intros E Ht Hp Hk Hd Hs HS. destruct c as [x so bd|f [|p0 ps] so t|t|k|k|fuel]; cbn [chk defd1 sorted1 plain_cmd] in *; rewrite ?app_nil_r.
    - cbn [command] in E. apply ret_val in E. destruct E as [E _]. apply (cmd_declare x so bd s s'); auto.
    - apply (cmd_const f so t s s' tr); auto.
    - destruct Hp as [Hp Hl]. apply (cmd_fun f p0 ps so t s s' tr); auto.
    - apply (cmd_assert t s s' tr); auto.
    - cbn [command] in E. destruct (Nat.eqb k 0); [discriminate|]. apply ret_val in E. destruct E as [-> _].
      eapply (state_adds s _ (repeat OPush k) _ _ (run (rev (d_ops s)) st0)); try reflexivity; [apply emits_adds|]. unfold state in HS.
      destruct (run (rev (d_ops s)) st0) as [p sv]. destruct (run_push k p sv) as (A & B & C). rewrite A, B, C, !app_nil_r. destruct ss as [j E0 FN FD F Z]. cbn [s_step].
      eapply inv_same; [..|exact HS|]; try (rewrite emits_eq; reflexivity); try reflexivity. destruct HS as (_ & _ & _ & _ & F1 & F2 & F3). cbn [ss_facts ss_saved fst snd] in *.
      split; [exact F1|]. split; [|exact F3]. cbn [snd]. rewrite pushes_eq. apply Forall2_app; auto. clear - F1. induction k as [|k IH]; cbn [repeat]; constructor; auto.
    - cbn [command] in E. destruct (Nat.eqb k 0); [discriminate|]. apply ret_val in E. destruct E as [-> _].
      eapply (state_adds s _ (repeat OPop k) _ _ (run (rev (d_ops s)) st0)); try reflexivity; [apply emits_adds|]. unfold state in HS.
      destruct ss as [j E0 FN FD F Z]. cbn [s_step]. destruct (run_pop s _ _ _ k _ _ _ (proj2 (proj2 (proj2 (proj2 HS))))) as (A & B & C). rewrite B, C, !app_nil_r. cbn [ss_facts ss_saved] in A.
      destruct (pops k F Z) as [F' Z'] eqn:Ep. cbn [fst snd] in A.
      eapply inv_same; [..|exact HS|]; try (rewrite emits_eq; reflexivity); try reflexivity. exact A.
    - cbn [command] in E. apply ret_val in E. destruct E as [-> _]. unfold state in HS.
      eapply (state_adds s _ [OCheck fuel] _ _ (run (rev (d_ops s)) st0)); try reflexivity. cbn [problems declared_vars flat_map app]. rewrite app_nil_r.
      assert (Es : s_step M stdD V (KCheck fuel) ss = ss) by (destruct ss; reflexivity). rewrite Es.
      change (run [OCheck fuel] (run (rev (d_ops s)) st0)) with (p_step (OCheck fuel) (run (rev (d_ops s)) st0)). 
      destruct (run (rev (d_ops s)) st0) as [p sv]. cbn [p_step].
      eapply inv_same; [..|exact HS|]; try reflexivity. destruct HS as (_ & _ & _ & _ & F1 & F2 & F3). split; [exact F1|]. split; [exact F2|]. apply Forall2_app; auto.
  Qed.
  Lemma command_notes c s s' tr : command fpow n alloc c s = (Val s', tr) -> exists l, d_notes s' = l ++ d_notes s.
  Proof.
    intros E. destruct c as [x so bd|f ps so t|t|k|k|fuel]; cbn [command] in E.
    - apply ret_val in E. destruct E as [-> _]. exists []. destruct bd as [[l u]|]; reflexivity.
    - destruct (reg_params alloc ps s) as [vs s1] eqn:Er. destruct (reg_params_em ps s vs s1 Er) as [_ Nt]. apply bind_val in E. destruct E as ([tm s2] & t1 & t2 & E1 & E2 & ->).
      destruct (elab_notes t s1 _ _ E1) as (l & El). cbn [snd] in El. rewrite Nt in El. exists l. rewrite <- El. cbn [fst snd] in E2. destruct vs as [|v vs].
      + unfold declare_var, register in E2. destruct (type_ok tm _); cbn [negb] in E2; [|discriminate].
        destruct tm; [apply bind_val in E2; destruct E2 as (g & ? & ? & _ & E2 & _)|]; apply ret_val in E2; destruct E2 as [-> _]; reflexivity.
      + apply ret_val in E2. destruct E2 as [-> _]. reflexivity.
    - ub E. destruct (elab_notes t s _ _ H) as (l & El). exists l. exact El.
    - destruct (Nat.eqb k 0); [discriminate|]. apply ret_val in E. destruct E as [-> _]. exists []. rewrite emits_eq. reflexivity.
    - destruct (Nat.eqb k 0); [discriminate|]. apply ret_val in E. destruct E as [-> _]. exists []. rewrite emits_eq. reflexivity.
    - apply ret_val in E. destruct E as [-> _]. exists []. reflexivity.
  Qed.
  Lemma script_notes cs : forall s s' tr, script fpow n alloc cs s = (Val s', tr) -> exists l, d_notes s' = l ++ d_notes s.
  Proof.
    induction cs as [|c cs IH]; intros s s' tr E; cbn [script] in E; [apply ret_val in E; destruct E as [-> _]; exists []; auto|].
    apply bind_val in E. destruct E as (s1 & t1 & t2 & E1 & E2 & ->). eapply notes_trans; [eapply command_notes; eauto|eapply IH; eauto].
  Qed.
  Lemma count_step c ss : ss_count (s_step M stdD V c ss) = match c with KDeclare _ _ _ | KDefine _ [] _ _ => S (ss_count ss) | _ => ss_count ss end.
  Proof. destruct ss as [k E0 FN FD F Z]. destruct c as [x so bd|f [|p ps] so t|t|j|j|fuel]; try reflexivity. cbn [s_step]. destruct (pops j F Z). reflexivity. Qed.
  Lemma script_inv cs : forall s s' tr ss CF, script fpow n alloc cs s = (Val s', tr) -> ok tr -> Forall plain_cmd cs -> Forall kept (d_notes s') ->
    s_defd M stdD V cs ss -> s_sorted V cs (ss_count ss) -> state s ss CF -> state s' (s_run M stdD V cs ss) (CF ++ s_checks M stdD V cs ss).
  Proof.
    induction cs as [|c cs IH]; intros s s' tr ss CF E Ht Hp Hk Hd Hs HS; cbn [script] in E.
    - apply ret_val in E. destruct E as [-> _]. cbn [s_checks]. rewrite app_nil_r. exact HS.
    - apply bind_val in E. destruct E as (s1 & t1 & t2 & E1 & E2 & ->). apply Forall_app in Ht. destruct Ht as [O1 O2]. cbn [s_defd] in Hd. destruct Hd as [D1 D2].
      assert (Hs2 : sorted1 c (ss_count ss) /\ s_sorted V cs (ss_count (s_step M stdD V c ss))).
      { rewrite count_step. destruct c as [x so bd|f [|p ps] so t|t|j|j|fuel]; cbn [s_sorted sorted1] in *; auto. }
      destruct Hs2 as [S1 S2].
      pose proof (command_ok c s s1 t1 ss CF E1 O1 (Forall_inv Hp) (kept_mono s1 s' (script_notes cs s1 s' t2 E2) Hk) D1 S1 HS) as HS1.
      pose proof (IH s1 s' t2 _ _ E2 O2 (Forall_inv_tail Hp) Hk D2 S2 HS1) as H.
      assert (Eq : s_checks M stdD V (c :: cs) ss = chk c ss ++ s_checks M stdD V cs (s_step M stdD V c ss)) by (destruct c; reflexivity).
      rewrite Eq, app_assoc. exact H.
  Qed.
  Lemma state0 : state drv0 (s_init) [].
  Proof.
    split; [|split; [reflexivity|]]; [|split; [intros v []|]].
    - split; cbn; try (intros; contradiction); intros v (x & [] & _).
    - split; [intros rho W _; split; [intros x v X; discriminate|intros f fd X; discriminate]|].
      split; [|split; constructor]. cbn [fst]. split; [intros v d []|]. split; [intros f []|]. split; [intros rho _ P []|]. intros _. exists (fun _ => 0%R).
      split; [|intros v _ _; auto]. split; [|split; [|split]].
      + intros v. destruct (vty v); cbn; auto. exists 0%Z. reflexivity.
      + intros i v X. destruct i; discriminate.
      + intros v d [].
      + intros f [].
  Qed.
  Theorem script_ok cs s' tr : script fpow n alloc cs drv0 = (Val s', tr) -> ok tr -> Forall plain_cmd cs -> Forall kept (d_notes s') ->
    s_defd M stdD V cs s_init -> s_sorted V cs 0 ->
    Forall2 (fun (F : list Prop) p => (forall P, In P F -> P) <-> exists rho, well_typed rho /\
      (forall i v, nth_error (declared_vars (rev (d_ops s'))) i = Some v -> varval v rho = V i) /\
      (forall v d, In (v, d) (p_doms p) -> d (rho v)) /\ forall f, In f (p_asserts p) -> dF f rho /\ hd f rho)
      (s_checks M stdD V cs s_init) (problems (rev (d_ops s')) (p_empty, [])).
  Proof.
    intros E Ht Hp Hk Hd Hs. destruct (script_inv cs drv0 s' tr s_init [] E Ht Hp Hk Hd Hs state0) as (_ & _ & _ & _ & _ & _ & F3). cbn [app] in F3.
    change (p_empty, []) with st0. clear - F3. induction F3 as [|p F CP CF (A1 & A2 & A3 & A4) F3 IH]; constructor; auto. split.
    - intros H. destruct (A4 H) as (rho & G & _). exists rho. exact G.
    - intros (rho & G). apply (A3 rho G).
  Qed.
  Theorem term_ok cs s tr t tm s' tr' : script fpow n alloc cs drv0 = (Val s, tr) -> ok tr -> Forall plain_cmd cs -> Forall kept (d_notes s') ->
    s_defd M stdD V cs s_init -> s_sorted V cs 0 -> el t s = (Val (tm, s'), tr') -> ok tr' -> plain_term t -> has_let t = false ->
    defd M (ss_funs (s_run M stdD V cs s_init)) stdD (ss_fdef (s_run M stdD V cs s_init)) t (ss_env (s_run M stdD V cs s_init)) ->
    forall rho, reads V (rev (d_ops s)) rho ->
    term_value M tm rho = den M (ss_funs (s_run M stdD V cs s_init)) t (ss_env (s_run M stdD V cs s_init)) /\ term_def M stdD tm rho.
  Proof.
    intros E Ht Hp Hk Hd Hs Et Ht' Hpt Hl D rho [W Mt]. pose proof (elab_notes t s (tm, s') tr' Et) as Hn. cbn [snd] in Hn.
    destruct (script_inv cs drv0 s tr s_init [] E Ht Hp (kept_mono s s' Hn Hk) Hd Hs state0) as (SI & _ & _ & HR & _).
    destruct (elab_ok t s tm s' tr' SI Et Ht' Hpt Hk) as (cs' & _ & _ & Hc & Hsem). specialize (Hc Hl). subst cs'.
    destruct (HR rho W Mt) as [R1 R2]. destruct (Hsem _ _ _ D rho R1 R2 I) as [Hm _]. destruct (Hm (fun f X => False_ind _ X)) as [X _]. exact X.
  Qed.
  End Vals.
End Front.
