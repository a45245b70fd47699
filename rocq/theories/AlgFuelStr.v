(** * Strengthening by delta ends *)
From Coq Require Import ZArith List Bool Arith Lia.
From Flocq Require Import IEEE754.BinarySingleNaN.
From Verif Require Import Dbl Syntax FormulaCons MathConv Order ExprAlg ExprAlgProofs DeltaStr CmpSound AlgClosed DeltaStrProofs ExamplesAlg AlgFuel AlgFuelTop.
From Verif Require AlgClosedAny.
Import ListNotations.
Local Open Scope comp_scope.
#[local] Opaque deq dZ done dzero dnone dtwo dep av mk_add mk_mul mk_sub mk_neg mk_relm mk_div mk_un mk_bin mk_pow mk_and mk_or mk_not.

(** two amounts of fuel *)
Definition ends2 {A} (f : nat -> nat -> comp A) : Prop :=
  exists n0 k0, forall n k, n0 <= n -> k0 <= k -> f n k = f n0 k0 /\ fst (f n k) <> Fuel.
Lemma ends2_const {A} (f : nat -> comp A) : ends f -> ends2 (fun n _ => f n).
Proof. intros (n0 & H). exists n0, 0. intros n k Hn _. apply H. exact Hn. Qed.
Lemma ends2_S {A} (f g : nat -> nat -> comp A) : (forall n k, g n (S k) = f n k) -> ends2 f -> ends2 g.
Proof.
  intros E (n0 & k0 & H). exists n0, (S k0). intros n k Hn Hk. destruct k as [|k]; [lia|]. rewrite !E. apply H; [exact Hn|lia].
Qed.
Lemma ends2_bindQ {A B} (Q : A -> Prop) (f : nat -> nat -> comp A) (g : A -> nat -> nat -> comp B) :
  ends2 f -> (forall n k a t, f n k = (Val a, t) -> Q a) -> (forall a, Q a -> ends2 (g a)) -> ends2 (fun n k => bind (f n k) (fun a => g a n k)).
Proof.
  intros (n0 & k0 & H0) HQ G. destruct (f n0 k0) as [o u] eqn:E. destruct o as [a| | |].
  - destruct (G a (HQ _ _ _ _ E)) as (n1 & k1 & H1). exists (n0 + n1), (k0 + k1).
    assert (K : forall n k, n0 + n1 <= n -> k0 + k1 <= k -> bind (f n k) (fun a => g a n k) = bind (f n0 k0) (fun _ => g a n1 k1) /\ fst (g a n1 k1) <> Fuel).
    { intros n k Hn Hk. destruct (H0 n k ltac:(lia) ltac:(lia)) as [E0 _]. rewrite E0, E. destruct (H1 n k ltac:(lia) ltac:(lia)) as [E1 N1].
      cbn [bind]. rewrite E1. split; [reflexivity|]. rewrite E1 in N1. exact N1. }
    intros n k Hn Hk. destruct (K n k Hn Hk) as [K1 N]. destruct (K _ _ (le_n _) (le_n _)) as [K2 _]. rewrite K1, K2. split; [reflexivity|].
    rewrite E. cbn [bind]. destruct (g a n1 k1). exact N.
  - exists n0, k0. intros n k Hn Hk. destruct (H0 n k Hn Hk) as [E0 N]. rewrite E0, E. split; [reflexivity|discriminate].
  - exists n0, k0. intros n k Hn Hk. destruct (H0 n k Hn Hk) as [E0 N]. rewrite E0, E. split; [reflexivity|discriminate].
  - destruct (H0 n0 k0 (le_n _) (le_n _)) as [_ N]. rewrite E in N. now destruct N.
Qed.
Lemma ends2_bind {A B} (f : nat -> nat -> comp A) (g : A -> nat -> nat -> comp B) :
  ends2 f -> (forall a, ends2 (g a)) -> ends2 (fun n k => bind (f n k) (fun a => g a n k)).
Proof. intros H G. apply (ends2_bindQ (fun _ => True)); auto. Qed.

Section Str.
  Variable fpow : dbl -> dbl -> dbl.
  Lemma nice_kept n k d : forall e, nice e -> AlgClosedAny.pres nice nice (strE fpow n k d e).
  Proof.
    pose proof closed_noite as K. pose (U := fun _ : dbl => True); assert (HC : forall c : dbl, U c) by (intros; exact Logic.I); change (closedE U nice) in K.
    induction k as [|k IH]; intros e He; [apply AlgClosedAny.pres_fuel|].
    destruct e as [c|lb ub u|v|c ts|c ts|o a|o a b|f a b|m vs]; cbn [strE]; try (apply AlgClosedAny.pres_ret; auto; fail).
    - destruct (is_nan c); [apply AlgClosedAny.pres_throw|now apply AlgClosedAny.pres_ret].
    - assert (Hts : AlgClosedAny.mapA U nice ts) by (apply (ka _ _ K) in He; exact (proj2 He)).
      assert (X : forall acc, nice acc -> AlgClosedAny.pres nice nice (str_sum fpow n (strE fpow n k d) ts acc)).
      { clear He. revert Hts. induction ts as [|[a j] ts IHt]; intros Hts acc Ha; cbn [str_sum]; [now apply AlgClosedAny.pres_ret|].
        apply (AlgClosedAny.mapA_inv U nice HC) in Hts. destruct Hts as (H1 & H2 & H3).
        eapply AlgClosedAny.pres_bind; [apply IH; exact H1|]. intros a' Ha'.
        eapply AlgClosedAny.pres_bind; [apply (AlgClosedAny.mk_mul_P fpow U nice HC K); auto; reflexivity|]. intros p Hp.
        eapply AlgClosedAny.pres_bind; [apply (AlgClosedAny.mk_add_P fpow U nice HC K); auto|]. intros acc' Hacc'. now apply IHt. }
      apply X. reflexivity.
    - assert (Hts : AlgClosedAny.mapM nice ts) by (apply (km _ _ K) in He; exact (proj2 He)).
      assert (X : forall acc, nice acc -> AlgClosedAny.pres nice nice (str_prod fpow n (strE fpow n k d) ts acc)).
      { clear He. revert Hts. induction ts as [|[a j] ts IHt]; intros Hts acc Ha; cbn [str_prod]; [now apply AlgClosedAny.pres_ret|].
        apply AlgClosedAny.mapM_inv in Hts. destruct Hts as (H1 & H2 & H3).
        eapply AlgClosedAny.pres_bind; [apply IH; exact H1|]. intros a' Ha'. eapply AlgClosedAny.pres_bind; [apply IH; exact H2|]. intros j' Hj'.
        eapply AlgClosedAny.pres_bind; [apply (AlgClosedAny.mk_pow_P fpow U nice HC K); auto|]. intros p Hp.
        eapply AlgClosedAny.pres_bind; [apply (AlgClosedAny.mk_mul_P fpow U nice HC K); auto|]. intros acc' Hacc'. now apply IHt. }
      apply X. reflexivity.
    - eapply AlgClosedAny.pres_bind; [apply IH; exact He|]. intros a' Ha'. now apply (AlgClosedAny.mk_un_P U nice HC K).
    - apply (kb _ _ K) in He. destruct He as [H1 H2].
      eapply AlgClosedAny.pres_bind; [apply IH; exact H1|]. intros a' Ha'. eapply AlgClosedAny.pres_bind; [apply IH; exact H2|]. intros b' Hb'.
      now apply (AlgClosedAny.mk_bin_P fpow U nice HC K).
    - discriminate.
  Qed.
  Ltac eb := match goal with
    | |- ends2 (fun n k => bind (@?f n k) (fun a => @?g n k a)) => apply (ends2_bind f (fun a n k => g n k a)); [|intros ?]
    end.
  Ltac ec := match goal with |- ends2 (fun n _ => @?f n) => apply (ends2_const f) end.

  Lemma ends_strE d e : nice e -> ends2 (fun n k => strE fpow n k d e).
  Proof.
    revert e. apply (expr_ind2 (fun e => nice e -> ends2 (fun n k => strE fpow n k d e)) (fun _ => True)); try exact Logic.I; try (intros; exact Logic.I).
    - intros c _. apply (ends2_S (fun _ _ => if is_nan c then (Throw, []) else ret (EConst c))); [reflexivity|]. ec. destruct (is_nan c); [apply ends_throw|apply ends_ret].
    - intros a b u _. apply (ends2_S (fun _ _ => ret (EReal a b u))); [reflexivity|]. ec. apply ends_ret.
    - intros v _. apply (ends2_S (fun _ _ => ret (EVar v))); [reflexivity|]. ec. apply ends_ret.
    - intros c ts H He. apply (ends2_S (fun n k => str_sum fpow n (strE fpow n k d) ts (mk_const c))); [reflexivity|].
      assert (Hts : mapA (fun _ => True) nice ts) by (apply (ka _ _ closed_noite) in He; exact (proj2 He)). clear He.
      generalize (mk_const c). induction H as [|[a j] ts Ha Ht IH]; intros acc; cbn [str_sum]; [ec; apply ends_ret|].
      apply mapA_inv in Hts. destruct Hts as (H1 & H2 & H3). eb; [apply Ha; exact H1|]. eb; [ec; apply ends_mul|]. eb; [ec; apply ends_add|]. apply IH. exact H3.
    - intros c ts H He. apply (ends2_S (fun n k => str_prod fpow n (strE fpow n k d) ts (mk_const c))); [reflexivity|].
      assert (Hts : mapM nice ts) by (apply (km _ _ closed_noite) in He; exact (proj2 He)). clear He.
      generalize (mk_const c). induction H as [|[a j] ts [Ha Hj] Ht IH]; intros acc; cbn [str_prod]; [ec; apply ends_ret|].
      apply mapM_inv in Hts. destruct Hts as (H1 & H2 & H3). eb; [apply Ha; exact H1|]. eb; [apply Hj; exact H2|]. eb; [ec; apply ends_pow|]. eb; [ec; apply ends_mul|]. apply IH. exact H3.
    - intros o a IH He. apply (ends2_S (fun n k => a' <- strE fpow n k d a ;; mk_un o a')); [reflexivity|]. eb; [apply IH; exact He|]. ec. apply ends_un.
    - intros o a b IHa IHb He. apply (kb _ _ closed_noite) in He. destruct He as [H1 H2].
      apply (ends2_S (fun n k => a' <- strE fpow n k d a ;; b' <- strE fpow n k d b ;; mk_bin fpow o a' b')); [reflexivity|].
      eb; [apply IHa; exact H1|]. eb; [apply IHb; exact H2|]. ec. apply ends_bin.
    - intros f a b _ _ _ He. discriminate.
    - intros m vs _. apply (ends2_S (fun _ _ => ret (EUf m vs))); [reflexivity|]. ec. apply ends_ret.
  Qed.
  Lemma ends_str_rel op d a b : nice a -> nice b -> ends2 (fun n k => str_rel fpow n (strE fpow n k d) op d a b).
  Proof.
    intros Ha Hb. unfold str_rel. eb; [apply ends_strE; exact Ha|]. eb; [apply ends_strE; exact Hb|]. clear Ha Hb a b. rename a0 into a, a1 into b.
    assert (X1 : ends2 (fun n _ : nat => l' <- mk_sub fpow n a (mk_const d) ;; mk_relm fpow n op l' b)) by (eb; [ec; apply ends_sub|ec; apply ends_relm]).
    assert (X2 : ends2 (fun n _ : nat => r' <- mk_add fpow n b (mk_const d) ;; mk_relm fpow n op a r')) by (eb; [ec; apply ends_add|ec; apply ends_relm]).
    assert (X3 : ends2 (fun n _ : nat => r' <- mk_sub fpow n b (mk_const d) ;; mk_relm fpow n op a r')) by (eb; [ec; apply ends_sub|ec; apply ends_relm]).
    assert (X4 : ends2 (fun n _ : nat => l' <- mk_add fpow n a (mk_const d) ;; mk_relm fpow n op l' b)) by (eb; [ec; apply ends_add|ec; apply ends_relm]).
    destruct op; [destruct (is_variable a)|destruct (is_variable a)|destruct (is_variable b)|destruct (is_variable b)|destruct (is_variable a)|destruct (is_variable a)]; assumption.
  Qed.
  (** the second visit, of the operands already visited *)
  Lemma ends_again op d l r (C : forall x y : formula, formula) op2 : nice l -> nice r ->
    ends2 (fun n k => f1 <- mk_relm fpow n op l r ;; g1 <- str_relF fpow n (strE fpow n k d) op d f1 ;;
                      f2 <- mk_relm fpow n op2 l r ;; g2 <- str_relF fpow n (strE fpow n k d) op2 d f2 ;; ret (C g1 g2)).
  Proof.
    intros Hl Hr.
    assert (R : forall o, ends2 (fun n (_ : nat) => mk_relm fpow n o l r)) by (intros o; ec; apply ends_relm).
    assert (Sh : forall o (n : nat) (k : nat) f t, mk_relm fpow n o l r = (Val f, t) -> forall p x y, f = FRel p x y -> x = l /\ y = r).
    { intros o n k f t E p x y Ef. exact (relm_shape fpow n o l r f t p x y E Ef). }
    assert (F : forall o f, (forall p x y, f = FRel p x y -> x = l /\ y = r) -> ends2 (fun n k => str_relF fpow n (strE fpow n k d) o d f)).
    { intros o f Hf. destruct f as [| | |p x y| | | |]; cbn [str_relF]; try (ec; apply ends_const; discriminate). destruct (Hf _ _ _ eq_refl) as [-> ->]. apply ends_str_rel; assumption. }
    apply (ends2_bindQ (fun f => forall p x y, f = FRel p x y -> x = l /\ y = r) (fun n _ => mk_relm fpow n op l r)
      (fun f1 n k => g1 <- str_relF fpow n (strE fpow n k d) op d f1 ;; f2 <- mk_relm fpow n op2 l r ;; g2 <- str_relF fpow n (strE fpow n k d) op2 d f2 ;; ret (C g1 g2))); [apply R|apply Sh|].
    intros f1 H1. eb; [apply F; exact H1|].
    apply (ends2_bindQ (fun f => forall p x y, f = FRel p x y -> x = l /\ y = r) (fun n _ => mk_relm fpow n op2 l r)
      (fun f2 n k => g2 <- str_relF fpow n (strE fpow n k d) op2 d f2 ;; ret (C a g2))); [apply R|apply Sh|].
    intros f2 H2. eb; [apply F; exact H2|]. ec. apply ends_ret.
  Qed.
  Lemma ends_visit2 {B} d a b (g : expr -> expr -> nat -> nat -> comp B) : nice a -> nice b -> (forall l r, nice l -> nice r -> ends2 (g l r)) ->
    ends2 (fun n k => l <- strE fpow n k d a ;; r <- strE fpow n k d b ;; g l r n k).
  Proof.
    intros Ha Hb G. apply (ends2_bindQ nice (fun n k => strE fpow n k d a) (fun l n k => r <- strE fpow n k d b ;; g l r n k)); [apply ends_strE; exact Ha|intros n k l t E; exact (proj1 (nice_kept n k d a Ha _ _ E))|].
    intros l Hl. apply (ends2_bindQ nice (fun n k => strE fpow n k d b) (fun r n k => g l r n k)); [apply ends_strE; exact Hb|intros n k r t E; exact (proj1 (nice_kept n k d b Hb _ _ E))|].
    intros r Hr. apply G; assumption.
  Qed.
  Lemma ends_strF f : forall d, hasIteF f = false -> ends2 (fun n k => strF fpow n k d f).
  Proof.
    induction f as [| |v|o a b|fs IH|fs IH|f IH|vs f IH] using formula_ind'; intros d Hf.
    - apply (ends2_S (fun _ _ => ret FTrue)); [reflexivity|ec; apply ends_ret].
    - apply (ends2_S (fun _ _ => ret FFalse)); [reflexivity|ec; apply ends_ret].
    - apply (ends2_S (fun _ _ => ret (FVar v))); [reflexivity|ec; apply ends_ret].
    - cbn [hasIteF] in Hf. apply orb_false_iff in Hf. destruct Hf as [Ha Hb].
      assert (G : forall op, (forall n k, strF fpow n (S k) d (FRel op a b) = str_rel fpow n (strE fpow n k d) op d a b) -> ends2 (fun n k => strF fpow n k d (FRel op a b))).
      { intros op E. exact (ends2_S _ _ E (ends_str_rel op d a b Ha Hb)). }
      destruct o; try (apply G; reflexivity).
      + apply (ends2_S (fun n k => str_eq fpow n (strE fpow n k d) d (FRel REq a b) a b)); [reflexivity|]. unfold str_eq. destruct (dlt dzero d); [ec; apply ends_ret|].
        apply (ends_visit2 d a b (fun l r n k => f1 <- mk_relm fpow n RGeq l r ;; g1 <- str_relF fpow n (strE fpow n k d) RGeq d f1 ;; f2 <- mk_relm fpow n RLeq l r ;; g2 <- str_relF fpow n (strE fpow n k d) RLeq d f2 ;; ret (mk_and g1 g2))); [assumption|assumption|].
        intros l r Hl Hr. apply ends_again; assumption.
      + apply (ends2_S (fun n k => str_neq fpow n (strE fpow n k d) d a b)); [reflexivity|]. unfold str_neq. destruct (dlt dzero d); [|ec; apply ends_ret].
        apply (ends_visit2 d a b (fun l r n k => f1 <- mk_relm fpow n RGt l r ;; g1 <- str_relF fpow n (strE fpow n k d) RGt d f1 ;; f2 <- mk_relm fpow n RLt l r ;; g2 <- str_relF fpow n (strE fpow n k d) RLt d f2 ;; ret (mk_or g1 g2))); [assumption|assumption|].
        intros l r Hl Hr. apply ends_again; assumption.
    - apply (ends2_S (fun n k => str_and (strF fpow n k d) fs FTrue)); [reflexivity|]. cbn [hasIteF] in Hf. generalize FTrue.
      induction IH as [|f fs H0 H1 IHs]; intros acc; cbn [str_and]; [ec; apply ends_ret|]. cbn [existsb] in Hf. apply orb_false_iff in Hf. destruct Hf as [F1 F2].
      eb; [apply H0; exact F1|apply IHs; exact F2].
    - apply (ends2_S (fun n k => str_or (strF fpow n k d) fs FFalse)); [reflexivity|]. cbn [hasIteF] in Hf. generalize FFalse.
      induction IH as [|f fs H0 H1 IHs]; intros acc; cbn [str_or]; [ec; apply ends_ret|]. cbn [existsb] in Hf. apply orb_false_iff in Hf. destruct Hf as [F1 F2].
      eb; [apply H0; exact F1|apply IHs; exact F2].
    - apply (ends2_S (fun n k => g' <- strF fpow n k (dopp d) f ;; ret (mk_not g'))); [reflexivity|]. eb; [apply IH; exact Hf|ec; apply ends_ret].
    - apply (ends2_S (fun _ _ => (Throw, []))); [reflexivity|ec; apply ends_throw].
  Qed.
  Lemma ends_strengthen f d : hasIteF f = false -> ends2 (fun n k => DeltaStrengthen fpow n k f d).
  Proof. intros H. unfold DeltaStrengthen. destruct (deq d dzero); [ec; apply ends_ret|apply ends_strF; exact H]. Qed.
End Str.

Lemma finish_example : forall fpow, gives (mk_mul fpow 5 prod1 prod2) (EMul (dZ 6) [(ex, kk 2); (ey, kk 3)]) = true /\
  fst (mk_mul fpow 1 prod1 prod2) = Fuel /\ hasIteF (FRel RNeq prod1 prod2) = false.
Proof.
  intros fpow. split; [apply mul_runs|]. split; [|reflexivity].
  assert (H : match fst (mk_mul fpow 1 prod1 prod2) with Fuel => true | _ => false end = true) by (vm_compute; reflexivity).
  destruct (fst (mk_mul fpow 1 prod1 prod2)); [discriminate..|reflexivity].
Qed.
