(** * Which variables occur in the terms the front end builds *)
From Coq Require Import ZArith Reals Lra Lia List Bool ClassicalDescription.
From Flocq Require Import IEEE754.BinarySingleNaN.
From Verif Require Import Dbl DblProofs Syntax Sem SemProofs FormulaCons FormulaConsProofs IEval StdInterp MathConv IteElimProofs
  Order ExprAlg SpecAlg ExprAlgProofs AlgClosed Subst SubstProofs.
Import ListNotations.

(** Free variables satisfy [A], bound ones [B]; Boolean variables are used as formulas, the others as terms;
    no uninterpreted function has arguments. *)
Section Occ.
  Variable B : var -> Prop.
  Fixpoint occE (A : var -> Prop) (e : expr) : Prop :=
    match e with
    | EConst _ | EReal _ _ _ => True
    | EVar v => A v /\ vty v <> BOOLEAN
    | EAdd _ ts => fold_right (fun p acc => match p with (a, _) => occE A a /\ acc end) True ts
    | EMul _ ts => fold_right (fun p acc => match p with (a, b) => (occE A a /\ occE A b) /\ acc end) True ts
    | EUn _ a => occE A a
    | EBin _ a b => occE A a /\ occE A b
    | EIte f a b => occF A f /\ occE A a /\ occE A b
    | EUf _ vs => vs = []
    end
  with occF (A : var -> Prop) (f : formula) : Prop :=
    match f with
    | FTrue | FFalse => True
    | FVar v => A v /\ vty v = BOOLEAN
    | FRel _ a b => occE A a /\ occE A b
    | FAnd fs => fold_right (fun g acc => occF A g /\ acc) True fs
    | FOr fs => fold_right (fun g acc => occF A g /\ acc) True fs
    | FNot g => occF A g
    | FForall vs g => (forall v, In v vs -> B v) /\ occF (fun v => A v \/ In v vs) g
    end.

  Lemma fold_addP (P : expr -> Prop) (ts : list (expr * dbl)) :
    fold_right (fun p acc => match p with (a, _) => P a /\ acc end) True ts <-> forall a k, In (a, k) ts -> P a.
  Proof.
    induction ts as [|[a k] ts IH]; cbn [fold_right]; [split; [intros _ a k []|auto]|]. rewrite IH. split.
    - intros [H1 H2] x y [E|E]; [inversion E; subst; auto|eauto].
    - intros H. split; [apply (H a k); left; auto|intros x y X; apply (H x y); right; auto].
  Qed.
  Lemma fold_mulP (P : expr -> Prop) (ts : list (expr * expr)) :
    fold_right (fun p acc => match p with (a, b) => (P a /\ P b) /\ acc end) True ts <-> forall a b, In (a, b) ts -> P a /\ P b.
  Proof.
    induction ts as [|[a k] ts IH]; cbn [fold_right]; [split; [intros _ a k []|auto]|]. rewrite IH. split.
    - intros [H1 H2] x y [E|E]; [inversion E; subst; auto|eauto].
    - intros H. split; [apply (H a k); left; auto|intros x y X; apply (H x y); right; auto].
  Qed.
  Lemma occ_add A c ts : occE A (EAdd c ts) <-> forall a k, In (a, k) ts -> occE A a. Proof. apply fold_addP. Qed.
  Lemma occ_mul A c ts : occE A (EMul c ts) <-> forall a b, In (a, b) ts -> occE A a /\ occE A b. Proof. apply fold_mulP. Qed.
  Lemma occ_and A fs : occF A (FAnd fs) <-> forall g, In g fs -> occF A g. Proof. apply fold_and_all. Qed.
  Lemma occ_or A fs : occF A (FOr fs) <-> forall g, In g fs -> occF A g. Proof. apply fold_and_all. Qed.

  Lemma closedE_occ A : closedE (fun _ => True) (occE A).
  Proof.
    split; auto; try (intros; cbn [occE]; tauto).
    - intros c ts. rewrite occ_add. split; [intros H; split; auto; intros a k X; split; auto; eauto|intros [_ H] a k X; apply (H a k X)].
    - intros c ts. rewrite occ_mul. tauto.
  Qed.
  Lemma closedP_occ A : closedP (occF A).
  Proof. split; try exact I; [apply occ_and|apply occ_or|reflexivity]. Qed.
  Lemma occ_mk_and A f g : occF A f -> occF A g -> occF A (mk_and f g). Proof. apply c_and, closedP_occ. Qed.
  Lemma occ_mk_or A f g : occF A f -> occF A g -> occF A (mk_or f g). Proof. apply c_or, closedP_occ. Qed.
  Lemma occ_mk_not A f : occF A (mk_not f) <-> occF A f. Proof. apply c_not, closedP_occ. Qed.
  Lemma occ_mk_ite A f a b : occF A f -> occE A a -> occE A b -> occE A (mk_ite f a b).
  Proof. intros. unfold mk_ite. destruct f; auto; exact (conj H (conj H0 H1)). Qed.

  (** Only the free variables matter *)
  Lemma occ_on : (forall e (A A' : var -> Prop), occE A e -> (forall v, In v (fvE e) -> A' v) -> occE A' e) /\
                 (forall f (A A' : var -> Prop), occF A f -> (forall v, In v (fvF f) -> A' v) -> occF A' f).
  Proof.
    apply expr_formula_ind2; try (intros; exact I).
    - intros v A A' [H1 H2] H. split; auto. apply H. left; auto.
    - intros c ts IH A A' K H. rewrite occ_add in *. intros a k X. rewrite Forall_forall in IH. apply (IH (a, k) X A A'); eauto.
      intros v Hv. apply H. apply in_flat_map. exists (a, k). auto.
    - intros c ts IH A A' K H. rewrite occ_mul in *. intros a b X. rewrite Forall_forall in IH. destruct (IH (a, b) X) as [I1 I2]. destruct (K a b X).
      split; [apply (I1 A A')|apply (I2 A A')]; auto; intros v Hv; apply H; apply in_flat_map; exists (a, b); (split; [auto|apply in_app_iff; auto]).
    - intros o a IH A A' K H. apply (IH A A' K H).
    - intros o a b I1 I2 A A' [K1 K2] H. cbn [fvE] in H. exact (conj (I1 A A' K1 (fun v X => H v (in_or_app _ _ _ (or_introl X)))) (I2 A A' K2 (fun v X => H v (in_or_app _ _ _ (or_intror X))))).
    - intros f a b I0 I1 I2 A A' (K0 & K1 & K2) H. cbn [fvE] in H. split; [|split].
      + apply (I0 A A' K0). intros v X. apply H, in_app_iff. auto.
      + apply (I1 A A' K1). intros v X. apply H, in_app_iff. right. apply in_app_iff. auto.
      + apply (I2 A A' K2). intros v X. apply H, in_app_iff. right. apply in_app_iff. auto.
    - intros m vs A A' K H. exact K.
    - intros v A A' [H1 H2] H. split; auto. apply H. left; auto.
    - intros o a b I1 I2 A A' [K1 K2] H. cbn [fvF] in H. exact (conj (I1 A A' K1 (fun v X => H v (in_or_app _ _ _ (or_introl X)))) (I2 A A' K2 (fun v X => H v (in_or_app _ _ _ (or_intror X))))).
    - intros fs IH A A' K H. rewrite occ_and in *. intros g X. rewrite Forall_forall in IH. apply (IH g X A A'); auto.
      intros v Hv. apply H. apply in_flat_map. eauto.
    - intros fs IH A A' K H. rewrite occ_or in *. intros g X. rewrite Forall_forall in IH. apply (IH g X A A'); auto.
      intros v Hv. apply H. apply in_flat_map. eauto.
    - intros g IH A A' K H. apply (IH A A' K H).
    - intros vs g IH A A' [K1 K2] H. split; auto. apply (IH _ _ K2). intros v Hv. destruct (mem_var v vs) eqn:E; [right; now apply mem_var_In|left].
      apply H. cbn [fvF]. apply filter_In. rewrite E. auto.
  Qed.
  Lemma occ_fv : (forall e A, occE A e -> forall v, In v (fvE e) -> A v) /\ (forall f A, occF A f -> forall v, In v (fvF f) -> A v).
  Proof.
    apply expr_formula_ind2; try (intros; match goal with H : In _ _ |- _ => destruct H end; fail).
    - intros v A [H _] w [<-|[]]; auto.
    - intros c ts IH A K v Hv. rewrite occ_add in K. apply in_flat_map in Hv. destruct Hv as ([a k] & X & Hv). rewrite Forall_forall in IH.
      apply (IH (a, k) X A (K a k X) v Hv).
    - intros c ts IH A K v Hv. rewrite occ_mul in K. apply in_flat_map in Hv. destruct Hv as ([a k] & X & Hv). rewrite Forall_forall in IH.
      destruct (IH (a, k) X) as [I1 I2]. destruct (K a k X) as [K1 K2]. apply in_app_iff in Hv. destruct Hv as [Hv|Hv]; [apply (I1 A K1 v Hv)|apply (I2 A K2 v Hv)].
    - intros o a IH A K v Hv. apply (IH A K v Hv).
    - intros o a b I1 I2 A [K1 K2] v Hv. cbn [fvE] in Hv. apply in_app_iff in Hv. destruct Hv as [Hv|Hv]; [apply (I1 A K1 v Hv)|apply (I2 A K2 v Hv)].
    - intros f a b I0 I1 I2 A (K0 & K1 & K2) v Hv. cbn [fvE] in Hv. apply in_app_iff in Hv. destruct Hv as [Hv|Hv]; [apply (I0 A K0 v Hv)|].
      apply in_app_iff in Hv. destruct Hv as [Hv|Hv]; [apply (I1 A K1 v Hv)|apply (I2 A K2 v Hv)].
    - intros m vs A K v Hv. cbn in K. subst vs. destruct Hv.
    - intros v A [H _] w [<-|[]]; auto.
    - intros o a b I1 I2 A [K1 K2] v Hv. cbn [fvF] in Hv. apply in_app_iff in Hv. destruct Hv as [Hv|Hv]; [apply (I1 A K1 v Hv)|apply (I2 A K2 v Hv)].
    - intros fs IH A K v Hv. rewrite occ_and in K. apply in_flat_map in Hv. destruct Hv as (g & X & Hv). rewrite Forall_forall in IH. apply (IH g X A (K g X) v Hv).
    - intros fs IH A K v Hv. rewrite occ_or in K. apply in_flat_map in Hv. destruct Hv as (g & X & Hv). rewrite Forall_forall in IH. apply (IH g X A (K g X) v Hv).
    - intros g IH A K v Hv. apply (IH A K v Hv).
    - intros vs g IH A [K1 K2] v Hv. cbn [fvF] in Hv. apply filter_In in Hv. destruct Hv as [Hv Hn].
      destruct (IH _ K2 v Hv) as [X|X]; auto. apply mem_var_In in X. rewrite X in Hn. discriminate.
  Qed.
  Lemma occ_forall A vs f : (forall v, In v vs -> B v) -> occF (fun v => A v \/ In v vs) f -> occF A (FForall vs f).
  Proof. intros H K. exact (conj H K). Qed.
  Lemma occE_mono e (A A' : var -> Prop) : (forall v, A v -> A' v) -> occE A e -> occE A' e.
  Proof. intros H K. apply (proj1 occ_on e A A' K). intros v Hv. apply H. apply (proj1 occ_fv e A K v Hv). Qed.
  Lemma occF_mono f (A A' : var -> Prop) : (forall v, A v -> A' v) -> occF A f -> occF A' f.
  Proof. intros H K. apply (proj2 occ_on f A A' K). intros v Hv. apply H. apply (proj2 occ_fv f A K v Hv). Qed.
  Lemma occ_mk_forall (A : var -> Prop) vs f : (forall v, In v vs -> B v) -> occF (fun v => A v \/ In v vs) f -> occF A (mk_forall vs f).
  Proof.
    intros H K. unfold mk_forall. split; [intros v X; apply filter_In in X; destruct X; auto|].
    apply (proj2 occ_on f _ _ K). intros v Hv. destruct (proj2 occ_fv f _ K v Hv) as [X|X]; auto. right. apply filter_In. split; auto. now apply mem_var_In.
  Qed.
End Occ.
Lemma occ_bound (B B' : var -> Prop) : (forall v, B v -> B' v) ->
  (forall e A, occE B A e -> occE B' A e) /\ (forall f A, occF B A f -> occF B' A f).
Proof.
  intros HB. apply expr_formula_ind2; try (intros; exact I); try (intros; assumption).
  - intros c ts IH A K. rewrite occ_add in *. intros a k X. rewrite Forall_forall in IH. apply (IH (a, k) X A); eauto.
  - intros c ts IH A K. rewrite occ_mul in *. intros a b X. rewrite Forall_forall in IH. destruct (IH (a, b) X) as [I1 I2]. destruct (K a b X). auto.
  - intros o a IH A K. exact (IH A K).
  - intros o a b I1 I2 A [K1 K2]. exact (conj (I1 A K1) (I2 A K2)).
  - intros f a b I0 I1 I2 A (K0 & K1 & K2). exact (conj (I0 A K0) (conj (I1 A K1) (I2 A K2))).
  - intros o a b I1 I2 A [K1 K2]. exact (conj (I1 A K1) (I2 A K2)).
  - intros fs IH A K. rewrite occ_and in *. intros g X. rewrite Forall_forall in IH. apply (IH g X A); auto.
  - intros fs IH A K. rewrite occ_or in *. intros g X. rewrite Forall_forall in IH. apply (IH g X A); auto.
  - intros g IH A K. exact (IH A K).
  - intros vs g IH A [K1 K2]. exact (conj (fun v X => HB v (K1 v X)) (IH _ K2)).
Qed.

(** ** The constructors *)
Section Build.
  Variables (M : interp) (fpow : dbl -> dbl -> dbl) (n : nat) (B : var -> Prop).
  Notation ok := (Forall (exact M)).
  Definition res {X} (Q : X -> Prop) (c : comp X) : Prop := forall r t, c = (Val r, t) -> ok t -> Q r.
  Lemma exact_N t : ok t -> Forall (exactN M) t.
  Proof. apply Forall_impl. intros []; cbn; auto. Qed.
  Lemma res_pres {X} P (Q : X -> Prop) c : pres M P Q c -> res Q c.
  Proof. intros H r t E Ht. apply (H r t E (exact_N t Ht)). Qed.
  Lemma res_ret {X} (Q : X -> Prop) a : Q a -> res Q (ret a).
  Proof. intros H r t E _. apply ret_val in E. destruct E as [-> _]. auto. Qed.
  Lemma res_bind {X Y} (P : X -> Prop) (Q : Y -> Prop) x f : res P x -> (forall a, P a -> res Q (f a)) -> res Q (bind x f).
  Proof.
    intros H1 H2 r t E Ht. apply bind_val in E. destruct E as (a & t1 & t2 & E1 & E2 & ->). apply Forall_app in Ht. destruct Ht as [O1 O2].
    apply (H2 a (H1 _ _ E1 O1) _ _ E2 O2).
  Qed.
  Section A.
    Variable A : var -> Prop.
    Notation oE := (occE B A).
    Notation oF := (occF B A).
    Let K := closedE_occ B A.
    Lemma occ_relm o a b : oE a -> oE b -> res oF (mk_relm fpow n o a b).
    Proof. intros Ha Hb. eapply res_pres. apply (mk_relm_P M fpow _ _ K); try exact I; auto. exact (conj Ha Hb). Qed.
    Lemma occ_un o a : oE a -> res oE (mk_un o a). Proof. intros Ha. eapply res_pres, (mk_un_P M _ _ K); auto. Qed.
    Lemma occ_bin o a b : oE a -> oE b -> res oE (mk_bin fpow o a b). Proof. intros Ha Hb. eapply res_pres, (mk_bin_P M fpow _ _ K); auto. Qed.
    Lemma occ_plus a b : oE a -> oE b -> res oE (mk_add fpow n a b). Proof. intros Ha Hb. eapply res_pres, (mk_add_P M fpow _ _ K); auto. Qed.
    Lemma occ_minus a b : oE a -> oE b -> res oE (mk_sub fpow n a b). Proof. intros Ha Hb. eapply res_pres, (mk_sub_P M fpow _ _ K); auto. Qed.
    Lemma occ_times a b : oE a -> oE b -> res oE (mk_mul fpow n a b). Proof. intros Ha Hb. eapply res_pres, (mk_mul_P M fpow _ _ K); auto. Qed.
    Lemma occ_div a b : oE a -> oE b -> res oE (mk_div a b). Proof. intros Ha Hb. eapply res_pres, (mk_div_P M _ _ K); auto. Qed.
    Lemma occ_neg a : oE a -> res oE (mk_neg fpow n a). Proof. intros Ha. eapply res_pres, (mk_neg_P M fpow _ _ K); auto. Qed.
  End A.

  (** Substitution: what replaces a variable satisfies the new condition *)
  Definition imgs (A A' : var -> Prop) (sE : list (var * expr)) (sF : list (var * formula)) : Prop :=
    (forall v, A v -> vty v <> BOOLEAN -> match slookup v sE with Some e => occE B A' e | None => A' v end) /\
    (forall v, A v -> vty v = BOOLEAN -> match slookup v sF with Some f => occF B A' f | None => A' v end).
  Lemma imgs_erase A A' sE sF vs : imgs A A' sE sF ->
    imgs (fun v => A v \/ In v vs) (fun v => A' v \/ In v vs) (serase (filter (fun v => negb (vtype_eqb (vty v) BOOLEAN)) vs) sE)
                   (serase (filter (fun v => vtype_eqb (vty v) BOOLEAN) vs) sF).
  Proof.
    intros [I1 I2]. split; intros v Hv Ty; rewrite slookup_erase, mem_filter.
    - destruct (mem_var v vs) eqn:Em; [right; now apply mem_var_In|]. destruct Hv as [Hv|Hv]; [|apply mem_var_In in Hv; congruence].
      specialize (I1 v Hv Ty). destruct (slookup v sE); auto. apply (occE_mono B _ A'); auto.
    - destruct (vty v); try reflexivity. congruence.
    - destruct (mem_var v vs) eqn:Em; [right; now apply mem_var_In|]. destruct Hv as [Hv|Hv]; [|apply mem_var_In in Hv; congruence].
      specialize (I2 v Hv Ty). destruct (slookup v sF); auto. apply (occF_mono B _ A'); auto.
    - rewrite Ty. reflexivity.
  Qed.
  Definition QE (e : expr) : Prop := forall A A' sE sF, imgs A A' sE sF -> occE B A e -> res (occE B A') (substE fpow n sE sF e).
  Definition QF (f : formula) : Prop := forall A A' sE sF, imgs A A' sE sF -> occF B A f -> res (occF B A') (substF fpow n sE sF f).
  Lemma add_loop_occ A A' sE sF ts : imgs A A' sE sF -> Forall (fun p => QE (fst p)) ts -> (forall a k, In (a, k) ts -> occE B A a) ->
    forall f, facA (fun _ => True) (occE B A') f -> res (facA (fun _ => True) (occE B A')) (add_loop fpow n (substE fpow n sE sF) ts f).
  Proof.
    intros Hi. induction ts as [|[a k] ts IH]; intros HP Ho f Hf; cbn [add_loop]; [now apply res_ret|].
    inversion HP; subst. eapply res_bind; [apply (H1 A A'); [exact Hi|apply (Ho a k); left; auto]|]. intros a' Ha'.
    eapply res_bind; [apply occ_times; [exact Ha'|exact I]|]. intros p Hp.
    eapply res_bind; [eapply res_pres, (add_expr_P M fpow _ _ (closedE_occ B A')); auto|]. intros f' Hf'.
    apply IH; auto. intros x y X. apply (Ho x y). right; auto.
  Qed.
  Lemma mul_loop_occ A A' sE sF ts : imgs A A' sE sF -> Forall (fun p => QE (fst p) /\ QE (snd p)) ts -> (forall a k, In (a, k) ts -> occE B A a /\ occE B A k) ->
    forall f, facM (fun _ => True) (occE B A') f -> res (facM (fun _ => True) (occE B A')) (mul_loop fpow n (substE fpow n sE sF) ts f).
  Proof.
    intros Hi. induction ts as [|[a k] ts IH]; intros HP Ho f Hf; cbn [mul_loop]; [now apply res_ret|].
    inversion HP; subst. destruct H1 as [H1 H1']. destruct (Ho a k (or_introl eq_refl)).
    eapply res_bind; [apply (H1 A A'); [exact Hi|auto]|]. intros a' Ha'. eapply res_bind; [apply (H1' A A'); [exact Hi|auto]|]. intros b' Hb'.
    eapply res_bind; [eapply res_pres, (mk_pow_P M fpow _ _ (closedE_occ B A')); auto|]. intros p Hp.
    eapply res_bind; [eapply res_pres, (mul_expr_P M _ _ (closedE_occ B A')); auto;
      intros; first [apply (mk_add_P M fpow _ _ (closedE_occ B A')); assumption|apply (mk_mul_P M fpow _ _ (closedE_occ B A')); assumption]|]. intros f' Hf'.
    apply IH; auto. intros x y X. apply (Ho x y). right; auto.
  Qed.
  Lemma and_loop_occ A A' sE sF fs : imgs A A' sE sF -> Forall QF fs -> (forall g, In g fs -> occF B A g) ->
    forall acc ch, occF B A' acc -> res (fun o => match o with Some g => occF B A' g | None => forall g, In g fs -> occF B A' g end) (and_loop (substF fpow n sE sF) fs acc ch).
  Proof.
    intros Hi. induction fs as [|f fs IH]; intros HP Ho acc ch Ha; cbn [and_loop].
    - apply res_ret. destruct ch; auto. intros g [].
    - inversion HP; subst. eapply res_bind; [apply (H1 A A'); [exact Hi|apply Ho; left; auto]|]. intros f' Hf'. cbn zeta.
      set (same := formula_eqb f f').
      assert (Hs : same = true -> f = f') by (intros X; now apply formula_eqb_eq).
      assert (Ha' : occF B A' (mk_and acc (if same then f else f'))) by (apply occ_mk_and; auto; destruct same; auto; rewrite Hs; auto).
      destruct (is_false _); [now apply res_ret|].
      intros r t E Ht. pose proof (IH H2 (fun g X => Ho g (or_intror X)) _ _ Ha' r t E Ht) as R. destruct r as [g|]; auto.
      intros g [<-|X]; auto. destruct same eqn:Es; [rewrite Hs; auto|].
      exfalso. clear -E. rewrite orb_true_r in E. cbn [negb] in E.
      revert E. generalize (mk_and acc f') as x, t. induction fs as [|y fs IH]; intros x tt E; cbn [and_loop] in E.
      + apply ret_val in E. destruct E; discriminate.
      + apply bind_val in E. destruct E as (b & t1 & t2 & E1 & E2 & ->). cbn zeta in E2. destruct (is_false _) in E2.
        * apply ret_val in E2. destruct E2; discriminate.
        * apply (IH _ _ E2).
  Qed.
  Lemma or_loop_occ A A' sE sF fs : imgs A A' sE sF -> Forall QF fs -> (forall g, In g fs -> occF B A g) ->
    forall acc ch, occF B A' acc -> res (fun o => match o with Some g => occF B A' g | None => forall g, In g fs -> occF B A' g end) (or_loop (substF fpow n sE sF) fs acc ch).
  Proof.
    intros Hi. induction fs as [|f fs IH]; intros HP Ho acc ch Ha; cbn [or_loop].
    - apply res_ret. destruct ch; auto. intros g [].
    - inversion HP; subst. eapply res_bind; [apply (H1 A A'); [exact Hi|apply Ho; left; auto]|]. intros f' Hf'. cbn zeta.
      set (same := formula_eqb f f').
      assert (Hs : same = true -> f = f') by (intros X; now apply formula_eqb_eq).
      assert (Ha' : occF B A' (mk_or acc (if same then f else f'))) by (apply occ_mk_or; auto; destruct same; auto; rewrite Hs; auto).
      destruct (is_true _); [now apply res_ret|].
      intros r t E Ht. pose proof (IH H2 (fun g X => Ho g (or_intror X)) _ _ Ha' r t E Ht) as R. destruct r as [g|]; auto.
      intros g [<-|X]; auto. destruct same eqn:Es; [rewrite Hs; auto|].
      exfalso. clear -E. rewrite orb_true_r in E. cbn [negb] in E.
      revert E. generalize (mk_or acc f') as x, t. induction fs as [|y fs IH]; intros x tt E; cbn [or_loop] in E.
      + apply ret_val in E. destruct E; discriminate.
      + apply bind_val in E. destruct E as (b & t1 & t2 & E1 & E2 & ->). cbn zeta in E2. destruct (is_true _) in E2.
        * apply ret_val in E2. destruct E2; discriminate.
        * apply (IH _ _ E2).
  Qed.
  Lemma subst_occ : (forall e, QE e) /\ (forall f, QF f).
  Proof.
    apply expr_formula_ind2.
    - intros c A A' sE sF Hi Ho. now apply res_ret.
    - intros a b u A A' sE sF Hi Ho. now apply res_ret.
    - intros v A A' sE sF [Hi _] [Ho Ty]. cbn [substE]. apply res_ret. specialize (Hi v Ho Ty). destruct (slookup v sE); auto. split; auto.
    - intros c ts HP A A' sE sF Hi Ho. rewrite occ_add in Ho. cbn [substE]. eapply res_bind; [apply (add_loop_occ A A'); auto; split; [exact I|intros ? ? []]|].
      intros f Hf. eapply res_pres, (add_get_P M _ _ (closedE_occ B A')); auto. intros; apply (mk_mul_P M fpow _ _ (closedE_occ B A')); assumption.
    - intros c ts HP A A' sE sF Hi Ho. rewrite occ_mul in Ho. cbn [substE]. eapply res_bind; [apply (mul_loop_occ A A'); auto; split; [exact I|intros ? ? []]|].
      intros f [Hf1 Hf2]. eapply res_pres, (mul_get_P M fpow _ _ (closedE_occ B A')); auto.
    - intros o a IH A A' sE sF Hi Ho. cbn [substE]. eapply res_bind; [apply (IH A A' sE sF Hi Ho)|]. intros a' Ha'.
      destruct (expr_eqb a a') eqn:E; [|now apply occ_un]. apply expr_eqb_eq in E. subst. now apply res_ret.
    - intros o a b I1 I2 A A' sE sF Hi [O1 O2]. cbn [substE]. eapply res_bind; [apply (I1 A A' sE sF Hi O1)|]. intros a' Ha'.
      eapply res_bind; [apply (I2 A A' sE sF Hi O2)|]. intros b' Hb'. destruct (_ && _) eqn:E; [|now apply occ_bin].
      apply andb_true_iff in E. destruct E as [E1 E2]. apply expr_eqb_eq in E1, E2. subst. apply res_ret. exact (conj Ha' Hb').
    - intros f a b I0 I1 I2 A A' sE sF Hi (O0 & O1 & O2). cbn [substE]. eapply res_bind; [apply (I0 A A' sE sF Hi O0)|]. intros f' Hf'.
      eapply res_bind; [apply (I1 A A' sE sF Hi O1)|]. intros a' Ha'. eapply res_bind; [apply (I2 A A' sE sF Hi O2)|]. intros b' Hb'.
      destruct (_ && _) eqn:E; [|apply res_ret, occ_mk_ite; auto].
      apply andb_true_iff in E. destruct E as [E E2]. apply andb_true_iff in E. destruct E as [E0 E1].
      apply formula_eqb_eq in E0. apply expr_eqb_eq in E1, E2. subst. apply res_ret. exact (conj Hf' (conj Ha' Hb')).
    - intros m vs A A' sE sF Hi Ho. cbn [substE]. apply res_ret. cbn in *. subst. reflexivity.
    - intros A A' sE sF Hi Ho. now apply res_ret.
    - intros A A' sE sF Hi Ho. now apply res_ret.
    - intros v A A' sE sF [_ Hi] [Ho Ty]. cbn [substF]. apply res_ret. specialize (Hi v Ho Ty). destruct (slookup v sF); auto. split; auto.
    - intros o a b I1 I2 A A' sE sF Hi [O1 O2]. cbn [substF]. eapply res_bind; [apply (I1 A A' sE sF Hi O1)|]. intros a' Ha'.
      eapply res_bind; [apply (I2 A A' sE sF Hi O2)|]. intros b' Hb'. destruct (_ && _) eqn:E; [|now apply occ_relm].
      apply andb_true_iff in E. destruct E as [E1 E2]. apply expr_eqb_eq in E1, E2. subst. apply res_ret. exact (conj Ha' Hb').
    - intros fs HP A A' sE sF Hi Ho. rewrite occ_and in Ho. cbn [substF]. eapply res_bind; [apply (and_loop_occ A A'); auto; exact I|].
      intros [g|] H; apply res_ret; auto. rewrite occ_and. auto.
    - intros fs HP A A' sE sF Hi Ho. rewrite occ_or in Ho. cbn [substF]. eapply res_bind; [apply (or_loop_occ A A'); auto; exact I|].
      intros [g|] H; apply res_ret; auto. rewrite occ_or. auto.
    - intros g IH A A' sE sF Hi Ho. cbn [substF]. eapply res_bind; [apply (IH A A' sE sF Hi Ho)|]. intros g' Hg'.
      destruct (formula_eqb g g') eqn:E; apply res_ret; [|now apply occ_mk_not]. apply formula_eqb_eq in E. subst. exact Hg'.
    - intros vs g IH A A' sE sF Hi [O1 O2]. cbn [substF]. eapply res_bind; [apply (IH _ _ _ _ (imgs_erase A A' sE sF vs Hi) O2)|]. intros g' Hg'.
      destruct (formula_eqb g g') eqn:E; apply res_ret; [|now apply occ_mk_forall]. apply formula_eqb_eq in E. subst. exact (conj O1 Hg').
  Qed.
  Lemma occ_substE A A' sE sF e : imgs A A' sE sF -> occE B A e -> res (occE B A') (SubstituteE fpow n sE sF e).
  Proof.
    intros Hi Ho. pose proof (proj1 subst_occ e A A' sE sF Hi Ho) as G. unfold SubstituteE. destruct sE, sF; auto.
    apply res_ret. apply (proj1 (occ_on B) e A A' Ho). intros v Hv.
    destruct (vtype_eqb (vty v) BOOLEAN) eqn:Ty; destruct Hi as [I1 I2]; pose proof (proj1 (occ_fv B) e A Ho v Hv) as Av.
    - apply I2; auto. destruct (vty v); auto; discriminate.
    - apply I1; auto. intros X. rewrite X in Ty. discriminate.
  Qed.
  Lemma occ_substF A A' sE sF e : imgs A A' sE sF -> occF B A e -> res (occF B A') (SubstituteF fpow n sE sF e).
  Proof.
    intros Hi Ho. pose proof (proj2 subst_occ e A A' sE sF Hi Ho) as G. unfold SubstituteF. destruct sE, sF; auto.
    apply res_ret. apply (proj2 (occ_on B) e A A' Ho). intros v Hv.
    destruct (vtype_eqb (vty v) BOOLEAN) eqn:Ty; destruct Hi as [I1 I2]; pose proof (proj2 (occ_fv B) e A Ho v Hv) as Av.
    - apply I2; auto. destruct (vty v); auto; discriminate.
    - apply I1; auto. intros X. rewrite X in Ty. discriminate.
  Qed.

  (** No variable is captured *)
  Lemma occ_sok sE sF : (forall v w, B w -> ~ In w (ivars sE sF v)) ->
    (forall e A bs, (forall w, In w bs -> B w) -> occE B A e -> sokE sE sF bs e) /\
    (forall f A bs, (forall w, In w bs -> B w) -> occF B A f -> sokF sE sF bs f).
  Proof.
    intros HB. apply expr_formula_ind2; try (intros; exact I).
    - intros v A bs Hb [_ Ty]. split; auto.
    - intros c ts IH A bs Hb K. rewrite occ_add in K. cbn [sokE]. apply fold_addP. intros a k X. rewrite Forall_forall in IH. apply (IH (a, k) X A bs Hb). eauto.
    - intros c ts IH A bs Hb K. rewrite occ_mul in K. cbn [sokE]. apply fold_mulP. intros a k X. rewrite Forall_forall in IH.
      destruct (IH (a, k) X) as [I1 I2]. destruct (K a k X). split; [apply (I1 A bs Hb)|apply (I2 A bs Hb)]; auto.
    - intros o a IH A bs Hb K. apply (IH A bs Hb K).
    - intros o a b I1 I2 A bs Hb [K1 K2]. exact (conj (I1 A bs Hb K1) (I2 A bs Hb K2)).
    - intros f a b I0 I1 I2 A bs Hb (K0 & K1 & K2). exact (conj (I0 A bs Hb K0) (conj (I1 A bs Hb K1) (I2 A bs Hb K2))).
    - intros m vs A bs Hb K. exact K.
    - intros v A bs Hb [_ Ty]. split; auto.
    - intros o a b I1 I2 A bs Hb [K1 K2]. exact (conj (I1 A bs Hb K1) (I2 A bs Hb K2)).
    - intros fs IH A bs Hb K. rewrite occ_and in K. cbn [sokF]. apply fold_and_all. intros g X. rewrite Forall_forall in IH. apply (IH g X A bs Hb); auto.
    - intros fs IH A bs Hb K. rewrite occ_or in K. cbn [sokF]. apply fold_and_all. intros g X. rewrite Forall_forall in IH. apply (IH g X A bs Hb); auto.
    - intros g IH A bs Hb K. apply (IH A bs Hb K).
    - intros vs g IH A bs Hb [K1 K2]. cbn [sokF]. apply (IH _ (vs ++ bs)) in K2; auto. intros w Hw. apply in_app_iff in Hw. destruct Hw; auto.
  Qed.
End Build.
