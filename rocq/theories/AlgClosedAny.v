(** * Properties of expressions that the constructors preserve in every run

    The lemmas of AlgClosed.v for properties that do not look at the constants: no assumption on the computed numbers. *)
From Coq Require Import ZArith Reals Lra Lia List Bool.
From Flocq Require Import IEEE754.BinarySingleNaN.
From Verif Require Import Dbl DblProofs Syntax Sem SemProofs FormulaCons FormulaConsProofs IEval StdInterp MathConv Order ExprAlg SpecAlg ExprAlgProofs AlgClosed.
Import ListNotations.

Section Closed.
  Variables (fpow : dbl -> dbl -> dbl) (C : dbl -> Prop) (P : expr -> Prop).
  Hypothesis HC : forall c, C c.
  Hypothesis K : closedE C P.
  Notation kp := (Forall (keyP P)).

  Definition pres {A} (Q : A -> Prop) (c : comp A) : Prop :=
    forall r t, c = (Val r, t) -> Q r /\ kp t.

  Lemma pres_ret {A} (Q : A -> Prop) a : Q a -> pres Q (ret a).
  Proof. intros H r t E. apply ret_val in E. destruct E as [-> ->]. auto. Qed.
  Lemma pres_bind {A B} (Q : A -> Prop) (Q' : B -> Prop) x f : pres Q x -> (forall a, Q a -> pres Q' (f a)) -> pres Q' (bind x f).
  Proof.
    intros H1 H2 r t E. inb E.
    destruct (H1 _ _ H) as [Qa Ka]. destruct (H2 _ Qa _ _ H0) as [Qr Kr]. split; auto. apply Forall_app; auto.
  Qed.
  Lemma pres_fadd a b : pres C (fadd a b). Proof. intros r t E. inversion E; subst. split; [apply HC|repeat constructor]. Qed.
  Lemma pres_fmul a b : pres C (fmul a b). Proof. intros r t E. inversion E; subst. split; [apply HC|repeat constructor]. Qed.
  Lemma pres_fdiv a b : pres C (fdiv a b). Proof. intros r t E. inversion E; subst. split; [apply HC|repeat constructor]. Qed.
  Lemma pres_tell s : keyP P s -> pres (fun _ => True) (tell s).
  Proof. intros H r t E. inversion E; subst. auto. Qed.
  Lemma pres_throw {A} (Q : A -> Prop) t : pres Q (Throw, t). Proof. intros r u E; discriminate. Qed.
  Lemma pres_ub {A} (Q : A -> Prop) t : pres Q (Ub, t). Proof. intros r u E; discriminate. Qed.
  Lemma pres_fuel {A} (Q : A -> Prop) t : pres Q (Fuel, t). Proof. intros r u E; discriminate. Qed.
  Lemma P_const c : C c -> P (mk_const c).
  Proof. intros H. unfold mk_const. apply (kc _ _ K), HC. Qed.
  Lemma P_done : P (EConst done). Proof. apply (kc _ _ K), (kfin _ _ K), fin_done. Qed.
  Lemma P_dzero : P (EConst dzero). Proof. apply (kc _ _ K), (kfin _ _ K); reflexivity. Qed.
  Lemma P_dnone : P (EConst dnone). Proof. apply (kc _ _ K), (kfin _ _ K), fin_dnone. Qed.
  Lemma P_dtwo : P (EConst dtwo). Proof. apply (kc _ _ K), (kfin _ _ K), fin_dtwo. Qed.

  Definition mapA (m : list (expr * dbl)) : Prop := forall a k, In (a, k) m -> P a /\ C k.
  Definition mapM (m : list (expr * expr)) : Prop := forall a b, In (a, b) m -> P a /\ P b.
  Lemma mapA_cons a k m : P a -> C k -> mapA m -> mapA ((a, k) :: m).
  Proof. intros H1 H2 H3 x y [E|E]; [inversion E; subst; auto|auto]. Qed.
  Lemma mapM_cons a k m : P a -> P k -> mapM m -> mapM ((a, k) :: m).
  Proof. intros H1 H2 H3 x y [E|E]; [inversion E; subst; auto|auto]. Qed.
  Lemma mapA_inv a k m : mapA ((a, k) :: m) -> P a /\ C k /\ mapA m.
  Proof. intros H. destruct (H a k (or_introl eq_refl)). repeat split; auto; apply (H _ _ (or_intror H2)). Qed.
  Lemma mapM_inv a k m : mapM ((a, k) :: m) -> P a /\ P k /\ mapM m.
  Proof. intros H. destruct (H a k (or_introl eq_refl)). repeat split; auto; apply (H _ _ (or_intror H2)). Qed.

  Lemma add_term_P coeff t m : C coeff -> P t -> mapA m -> pres mapA (add_term coeff t m).
  Proof.
    intros Hc Ht. induction m as [|[k c] m IH]; intros Hm; cbn [add_term].
    - apply pres_ret. now apply mapA_cons.
    - destruct (mapA_inv _ _ _ Hm) as (Hk & Hck & Hm'). destruct (cmpE t k) eqn:E.
      + eapply pres_bind; [apply pres_tell; split; auto|]. intros _ _. eapply pres_bind; [apply pres_fadd|]. intros s Hs.
        apply pres_ret. destruct (deq s dzero); auto. now apply mapA_cons.
      + apply pres_ret. now apply mapA_cons.
      + eapply pres_bind; [apply IH; auto|]. intros m'' H''. apply pres_ret. now apply mapA_cons.
  Qed.
  Lemma add_map_P ts : forall m, mapA ts -> mapA m -> pres mapA (add_map ts m).
  Proof.
    induction ts as [|[t c] ts IH]; intros m Ht Hm; cbn [add_map]; [now apply pres_ret|].
    destruct (mapA_inv _ _ _ Ht) as (H1 & H2 & H3). eapply pres_bind; [apply add_term_P; auto|]. auto.
  Qed.
  Lemma pow_pow_P e1 e2 base v1 v2 : P e1 -> P e2 -> P base -> pres P (pow_pow e1 e2 base v1 v2).
  Proof.
    intros H1 H2 H3. unfold pow_pow. destruct (is_integer v1 && is_integer v2).
    - eapply pres_bind; [apply pres_fmul|]. intros v Hv. apply pres_ret. apply (kb _ _ K). split; auto. now apply P_const.
    - apply pres_ret. apply (kb _ _ K); auto.
  Qed.
  Lemma mk_pow_P e1 e2 : P e1 -> P e2 -> pres P (mk_pow fpow e1 e2).
  Proof.
    intros H1 H2. unfold mk_pow.
    assert (Dn : pres P (ret (EBin BPow e1 e2))) by (apply pres_ret; apply (kb _ _ K); auto).
    destruct e2 as [v2| | | | | | | |]; try exact Dn.
    destruct e1 as [v1| | | | | |o b x| |];
      try (destruct (deq v2 dzero); [apply pres_ret, P_done|]; destruct (deq v2 done); [now apply pres_ret|]; exact Dn).
    - destruct (pow_domain v1 v2); [|apply pres_throw].
      intros r t E. inversion E; subst. split; [|constructor; [exact I|constructor]].
      apply P_const, HC.
    - destruct (deq v2 dzero); [apply pres_ret, P_done|]; destruct (deq v2 done); [now apply pres_ret|].
      destruct o; try exact Dn. destruct (proj1 (kb _ _ K _ _ _) H1) as [Hb Hx].
      destruct x; try apply pres_ub.
      + now apply pow_pow_P.
      + eapply pres_bind; [apply pres_tell; exact I|]. intros _ _. now apply pow_pow_P.
  Qed.
  Lemma mk_div_P a b : P a -> P b -> pres P (mk_div a b).
  Proof.
    intros Ha Hb. unfold mk_div. destruct (is_c b done); [now apply pres_ret|].
    assert (G : pres P (if expr_eqb a b then ret (EConst done) else ret (EBin BDiv a b))).
    { destruct (expr_eqb a b); apply pres_ret; [apply P_done|apply (kb _ _ K); auto]. }
    destruct a; try exact G. destruct b; try exact G.
    destruct (deq c0 dzero); [apply pres_throw|]. eapply pres_bind; [apply pres_fdiv|]. intros v Hv. apply pres_ret. now apply P_const.
  Qed.
  Lemma mul_get_P c m : C c -> mapM m -> pres P (mul_get fpow c m).
  Proof.
    intros Hc Hm. unfold mul_get. destruct (deq c dzero); [apply pres_ret, P_dzero|].
    assert (G : pres P (ret (EMul c m))) by (apply pres_ret; apply (km _ _ K); auto).
    destruct m as [|[b e] [|p m]]; try exact G; [apply pres_ret; now apply P_const|].
    destruct (deq c done); [|exact G]. destruct (mapM_inv _ _ _ Hm) as (H1 & H2 & _). now apply mk_pow_P.
  Qed.
  Definition facA (f : dbl * list (expr * dbl)) : Prop := C (fst f) /\ mapA (snd f).
  Definition facM (f : dbl * list (expr * expr)) : Prop := C (fst f) /\ mapM (snd f).
  Lemma add_expr_P e f : P e -> facA f -> pres facA (add_expr fpow e f).
  Proof.
    intros He Hf. destruct f as [c m]. destruct Hf as [Hc Hm]. cbn [fst snd] in *. unfold add_expr.
    assert (G : pres facA (bind (add_term done e m) (fun m' => ret (c, m')))).
    { eapply pres_bind; [apply add_term_P; auto; apply (kfin _ _ K), fin_done|]. intros m' Hm'. apply pres_ret. now split. }
    destruct e as [v| | |c0 ts|k ts| | | |]; try exact G.
    - eapply pres_bind; [apply pres_fadd|]. intros c' Hc'. apply pres_ret. now split.
    - destruct (proj1 (ka _ _ K _ _) He) as [H1 H2].
      eapply pres_bind; [apply pres_fadd|]. intros c' Hc'. eapply pres_bind; [apply add_map_P; auto|]. intros m' Hm'. apply pres_ret. now split.
    - destruct (proj1 (km _ _ K _ _) He) as [H1 H2]. destruct (deq k done); [exact G|].
      eapply pres_bind; [apply mul_get_P; [apply (kfin _ _ K), fin_done|exact H2]|]. intros t Ht.
      eapply pres_bind; [apply add_term_P; auto|]. intros m' Hm'. apply pres_ret. now split.
  Qed.

  Section Rec.
    Variables (radd rmul : expr -> expr -> comp expr).
    Hypothesis Hadd : forall a b, P a -> P b -> pres P (radd a b).
    Hypothesis Hmul : forall a b, P a -> P b -> pres P (rmul a b).
    Lemma add_get_P f : facA f -> pres P (add_get rmul f).
    Proof.
      destruct f as [c m]. intros [Hc Hm]. cbn [fst snd] in *. unfold add_get.
      assert (G : pres P (ret (EAdd c m))) by (apply pres_ret; apply (ka _ _ K); auto).
      destruct m as [|[t k] [|p m]]; try exact G; [apply pres_ret; now apply P_const|].
      destruct (deq c dzero); [|exact G]. destruct (mapA_inv _ _ _ Hm) as (H1 & H2 & _). apply Hmul; auto. now apply P_const.
    Qed.
    Lemma neg_add_P c ts : C c -> mapA ts -> pres P (neg_add rmul c ts).
    Proof.
      intros H1 H2. apply add_get_P. split; cbn [fst snd]; [now apply (kopp _ _ K)|].
      intros a k Hin. apply in_map_iff in Hin. destruct Hin as ([x y] & E & Hin). inversion E; subst. destruct (H2 _ _ Hin).
      split; [auto|apply HC].
    Qed.
    Lemma neg_mul_P c ts : C c -> mapM ts -> pres P (neg_mul fpow c ts).
    Proof. intros H1 H2. apply mul_get_P; auto. Qed.
    Lemma add_body_P a b : P a -> P b -> pres P (add_body fpow rmul a b).
    Proof.
      intros Ha Hb. unfold add_body. destruct (is_c a dzero); [now apply pres_ret|]. destruct (is_c b dzero); [now apply pres_ret|].
      assert (G : pres P (bind (add_expr fpow a (dzero, [])) (fun f => bind (add_expr fpow b f) (fun g => add_get rmul g)))).
      { eapply pres_bind; [apply add_expr_P; auto; split; [apply (kfin _ _ K); reflexivity|intros ? ? []]|]. intros f Hf.
        eapply pres_bind; [apply add_expr_P; auto|]. intros g Hg. now apply add_get_P. }
      assert (L : forall c ts e, P (EAdd c ts) -> P e -> pres P (bind (add_expr fpow e (c, ts)) (fun f => add_get rmul f))).
      { intros c ts e H1 H2. eapply pres_bind; [apply add_expr_P; auto; exact (proj1 (ka _ _ K _ _) H1)|]. intros f Hf. now apply add_get_P. }
      destruct a as [va| | |ca ta| | | | |]; try (now apply L);
        destruct b as [vb| | |cb tb| | | | |]; try exact G; try (now apply L).
      eapply pres_bind; [apply pres_fadd|]. intros v Hv. apply pres_ret. now apply P_const.
    Qed.
    Lemma mul_term_P b e m : P b -> P e -> mapM m -> pres mapM (mul_term radd b e m).
    Proof.
      intros Hb He. induction m as [|[k c] m IH]; intros Hm; cbn [mul_term].
      - apply pres_ret. now apply mapM_cons.
      - destruct (mapM_inv _ _ _ Hm) as (Hk & Hck & Hm'). destruct (cmpE b k) eqn:E.
        + eapply pres_bind; [apply pres_tell; split; auto|]. intros _ _. eapply pres_bind; [apply Hadd; auto|]. intros s Hs.
          apply pres_ret. destruct (is_c s dzero); auto. now apply mapM_cons.
        + apply pres_ret. now apply mapM_cons.
        + eapply pres_bind; [apply IH; auto|]. intros m'' H''. apply pres_ret. now apply mapM_cons.
    Qed.
    Lemma mul_add_term_P b : forall e m, P b -> P e -> mapM m -> pres mapM (mul_add_term radd rmul b e m).
    Proof.
      refine (expr_ind2 (fun b => forall e m, P b -> P e -> mapM m -> pres mapM (mul_add_term radd rmul b e m)) (fun _ => True)
         _ _ _ _ _ _ _ _ _ _ _ _ _ _ _ _ _ b); try exact I; try (intros; exact I);
        try (intros; now apply mul_term_P).
      intros o e1 e2 IH _ e m Hb He Hm.
      destruct o; try now apply mul_term_P. destruct e2; try now apply mul_term_P. destruct e; try now apply mul_term_P.
      cbn [mul_add_term]. destruct (is_integer c); [|now apply mul_term_P].
      destruct (proj1 (kb _ _ K _ _ _) Hb) as [H1 H2].
      eapply pres_bind; [apply pres_tell; exact I|]. intros _ _. eapply pres_bind; [apply Hmul; auto|]. intros x Hx. now apply IH.
    Qed.
    Lemma mul_map_P ts : forall m, mapM ts -> mapM m -> pres mapM (mul_map radd rmul ts m).
    Proof.
      induction ts as [|[t c] ts IH]; intros m Ht Hm; cbn [mul_map]; [now apply pres_ret|].
      destruct (mapM_inv _ _ _ Ht) as (H1 & H2 & H3). eapply pres_bind; [apply mul_add_term_P; auto|]. auto.
    Qed.
    Lemma mul_expr_P e f : P e -> facM f -> pres facM (mul_expr radd rmul e f).
    Proof.
      intros He Hf. destruct f as [c m]. unfold mul_expr. destruct (deq c dzero); [now apply pres_ret|].
      destruct Hf as [Hc Hm]. cbn [fst snd] in *.
      destruct (is_c e dzero); [apply pres_ret; split; [apply (kfin _ _ K); reflexivity|intros ? ? []]|].
      assert (G : pres facM (bind (mul_add_term radd rmul e (EConst done) m) (fun m' => ret (c, m')))).
      { eapply pres_bind; [apply mul_add_term_P; auto; apply P_done|]. intros m' Hm'. apply pres_ret. now split. }
      destruct e as [v| | |c0 ts|k ts| |o b x| |]; try exact G.
      - eapply pres_bind; [apply pres_fmul|]. intros c' Hc'. apply pres_ret. now split.
      - destruct (proj1 (km _ _ K _ _) He) as [H1 H2].
        eapply pres_bind; [apply pres_fmul|]. intros c' Hc'. eapply pres_bind; [apply mul_map_P; auto|]. intros m' Hm'. apply pres_ret. now split.
      - destruct o; try exact G. destruct (proj1 (kb _ _ K _ _ _) He) as [H1 H2].
        eapply pres_bind; [apply mul_add_term_P; auto|]. intros m' Hm'. apply pres_ret. now split.
    Qed.
    Lemma fac1 : facM (done, []). Proof. split; [apply (kfin _ _ K), fin_done|intros ? ? []]. Qed.
    Lemma mul_flatten_P a b : P a -> P b -> pres P (mul_flatten fpow radd rmul a b).
    Proof.
      intros Ha Hb. unfold mul_flatten.
      assert (G : pres P (if expr_eqb a b then mk_pow fpow a (EConst dtwo)
          else bind (mul_expr radd rmul a (done, [])) (fun f => bind (mul_expr radd rmul b f) (fun g => mul_get fpow (fst g) (snd g))))).
      { destruct (expr_eqb a b); [apply mk_pow_P; auto using P_dtwo|].
        eapply pres_bind; [apply mul_expr_P; auto using fac1|]. intros f Hf.
        eapply pres_bind; [apply mul_expr_P; auto|]. intros g [Hg1 Hg2]. now apply mul_get_P. }
      assert (L : forall c ts e, P (EMul c ts) -> P e -> pres P (bind (mul_expr radd rmul e (c, ts)) (fun f => mul_get fpow (fst f) (snd f)))).
      { intros c ts e H1 H2. eapply pres_bind; [apply mul_expr_P; auto; exact (proj1 (km _ _ K _ _) H1)|]. intros f [Hf1 Hf2]. now apply mul_get_P. }
      destruct a as [va| | | |ca ta| | | |]; try (now apply L);
        destruct b as [vb| | | |cb tb| | | |]; try exact G; now apply L.
    Qed.
    Lemma mul_pows_P a b : P a -> P b -> pres P (mul_pows fpow radd rmul a b).
    Proof.
      intros Ha Hb. unfold mul_pows. assert (F := mul_flatten_P a b Ha Hb).
      assert (L : forall x y z, P x -> P y -> P z -> pres P (bind (radd y z) (fun s => mk_pow fpow x s))).
      { intros x y z Hx Hy Hz. eapply pres_bind; [apply Hadd; auto|]. intros s Hs. now apply mk_pow_P. }
      destruct a as [| | | | | |oa a1 a2| |]; try (destruct b as [| | | | | |ob b1 b2| |]; try exact F; destruct ob; try exact F;
        destruct (expr_eqb b1 _); [|exact F]; destruct (proj1 (kb _ _ K _ _ _) Hb) as [H1 H2]; apply L; auto using P_done).
      destruct oa; try (destruct b as [| | | | | |ob b1 b2| |]; try exact F; destruct ob; try exact F;
        destruct (expr_eqb b1 _); [|exact F]; destruct (proj1 (kb _ _ K _ _ _) Hb) as [H1 H2]; apply L; auto using P_done).
      destruct (proj1 (kb _ _ K _ _ _) Ha) as [H1 H2].
      assert (G : pres P (if expr_eqb a1 b then bind (radd a2 (EConst done)) (fun s => mk_pow fpow a1 s) else mul_flatten fpow radd rmul (EBin BPow a1 a2) b)).
      { destruct (expr_eqb a1 b); [apply L; auto using P_done|exact F]. }
      destruct b as [| | | | | |ob b1 b2| |]; try exact G. destruct ob; try exact G.
      destruct (expr_eqb a1 b1); [|exact G]. destruct (proj1 (kb _ _ K _ _ _) Hb) as [H3 H4]. apply L; auto.
    Qed.
    Lemma mul_neg_P a b : P a -> P b -> pres P (mul_neg fpow radd rmul a b).
    Proof.
      intros Ha Hb. unfold mul_neg.
      assert (R : pres P (mul_rest fpow radd rmul a b)).
      { unfold mul_rest. destruct (is_c a dzero); [now apply pres_ret|]. destruct (is_c b dzero); [apply pres_ret, P_dzero|].
        assert (Q := mul_pows_P a b Ha Hb). destruct a; try exact Q. destruct b; try exact Q.
        eapply pres_bind; [apply pres_fmul|]. intros v Hv. apply pres_ret. now apply P_const. }
      assert (R2 : pres P match is_c b dnone, a with
          | true, EAdd c ts => neg_add rmul c ts
          | true, EMul c ts => neg_mul fpow c ts
          | _, _ => mul_rest fpow radd rmul a b
          end).
      { destruct (is_c b dnone); [|exact R]. destruct a as [| | |c ts|c ts| | | |]; try exact R;
          [apply (ka _ _ K) in Ha; destruct Ha; now apply neg_add_P|apply (km _ _ K) in Ha; destruct Ha; now apply neg_mul_P]. }
      destruct (is_c a dnone); [|exact R2]. destruct b as [| | |c ts|c ts| | | |]; try exact R2;
          [apply (ka _ _ K) in Hb; destruct Hb; now apply neg_add_P|apply (km _ _ K) in Hb; destruct Hb; now apply neg_mul_P].
    Qed.
    Lemma mul_body_P a b : P a -> P b -> pres P (mul_body fpow radd rmul a b).
    Proof.
      intros Ha Hb. unfold mul_body. destruct (is_c a done); [now apply pres_ret|]. destruct (is_c b done); [now apply pres_ret|].
      assert (N := mul_neg_P a b Ha Hb).
      assert (L : forall x y z, P x -> P y -> P z -> pres P (bind (rmul x y) (fun n => mk_div n z))).
      { intros x y z Hx Hy Hz. eapply pres_bind; [apply Hmul; auto|]. intros s Hs. now apply mk_div_P. }
      assert (LR : forall k d, b = EBin BDiv (EConst k) d -> pres P (bind (rmul (EConst k) a) (fun n => mk_div n d))).
      { intros k d ->. apply (kb _ _ K) in Hb. destruct Hb. now apply L. }
      assert (LL : forall k d, a = EBin BDiv (EConst k) d -> pres P (bind (rmul (EConst k) b) (fun n => mk_div n d))).
      { intros k d ->. apply (kb _ _ K) in Ha. destruct Ha. now apply L. }
      assert (LB : forall a1 a2 b1 b2, a = EBin BDiv a1 a2 -> b = EBin BDiv b1 b2 -> pres P (bind (rmul a1 b1) (fun n => bind (rmul a2 b2) (fun e => mk_div n e)))).
      { intros a1 a2 b1 b2 -> ->. apply (kb _ _ K) in Ha, Hb. destruct Ha, Hb. eapply pres_bind; [apply Hmul; auto|]. intros x Hx. eapply pres_bind; [apply Hmul; auto|]. intros y Hy. now apply mk_div_P. }
      destruct a as [| | | | | |oa a1 a2| |]; try (destruct b as [| | | | | |ob b1 b2| |]; try exact N; destruct ob; try exact N; destruct b1; try exact N; eapply LR; eauto).
      destruct oa; try (destruct b as [| | | | | |ob b1 b2| |]; try exact N; destruct ob; try exact N; destruct b1; try exact N; eapply LR; eauto).
      destruct b as [| | | | | |ob b1 b2| |]; try (destruct a1; try exact N; eapply LL; eauto).
      destruct ob; try (destruct a1; try exact N; eapply LL; eauto).
      specialize (LB _ _ _ _ eq_refl eq_refl). destruct a1; exact LB.
    Qed.
  End Rec.

  Lemma addmul_P n : (forall a b, P a -> P b -> pres P (mk_add fpow n a b)) /\ (forall a b, P a -> P b -> pres P (mk_mul fpow n a b)).
  Proof.
    induction n as [|n [IHa IHm]]; [split; intros; apply pres_fuel|].
    split; intros a b Ha Hb; unfold mk_add, mk_mul; cbn [addmul fst snd]; [now apply add_body_P|now apply mul_body_P].
  Qed.
  Lemma mk_add_P n a b : P a -> P b -> pres P (mk_add fpow n a b). Proof. apply addmul_P. Qed.
  Lemma mk_mul_P n a b : P a -> P b -> pres P (mk_mul fpow n a b). Proof. apply addmul_P. Qed.
  Lemma mk_neg_P n a : P a -> pres P (mk_neg fpow n a).
  Proof.
    intros Ha. unfold mk_neg.
    assert (G : pres P (mk_mul fpow n (EConst dnone) a)) by (apply mk_mul_P; auto using P_dnone).
    destruct a as [c| | |c ts|c ts| | | |]; try exact G.
    - apply pres_ret, P_const, (kopp _ _ K), (kc _ _ K); auto.
    - apply (ka _ _ K) in Ha. destruct Ha. apply neg_add_P; auto. apply mk_mul_P.
    - apply (km _ _ K) in Ha. destruct Ha. now apply neg_mul_P.
  Qed.
  Lemma mk_sub_P n a b : P a -> P b -> pres P (mk_sub fpow n a b).
  Proof. intros Ha Hb. unfold mk_sub. eapply pres_bind; [apply mk_neg_P; auto|]. intros b' Hb'. now apply mk_add_P. Qed.
  Lemma mk_abs_P a : P a -> pres P (mk_abs a).
  Proof.
    intros Ha. unfold mk_abs. assert (G : pres P (ret (EUn UAbs a))) by (apply pres_ret; apply (ku _ _ K); auto).
    destruct a; try exact G. apply pres_ret, P_const, (kabs _ _ K), (kc _ _ K); auto.
  Qed.
  Lemma mk_un_P o a : P a -> pres P (mk_un o a).
  Proof.
    intros Ha. assert (G : pres P (ret (EUn o a))) by (apply pres_ret; apply (ku _ _ K); auto).
    destruct o; try exact G; unfold mk_un; [now apply mk_abs_P|].
    destruct a as [| | | | | |ob b x| |]; try exact G. destruct ob; try exact G. destruct (is_c x dtwo); [|exact G].
    apply mk_abs_P. apply (kb _ _ K) in Ha. apply Ha.
  Qed.
  Lemma mk_bin_P o a b : P a -> P b -> pres P (mk_bin fpow o a b).
  Proof.
    intros Ha Hb. assert (G : pres P (ret (EBin o a b))) by (apply pres_ret; apply (kb _ _ K); auto).
    assert (MM : forall pick, (forall x y, C x -> C y -> C (pick x y)) -> pres P (mk_mm o pick a b)).
    { intros pick Hp. unfold mk_mm. destruct (expr_eqb a b); [now apply pres_ret|].
      destruct a; try exact G. destruct b; try exact G. eapply pres_bind; [apply pres_tell; exact I|]. intros _ _.
      apply pres_ret, P_const. apply Hp; apply (kc _ _ K); auto. }
    destruct o; unfold mk_bin; [now apply mk_div_P|now apply mk_pow_P|exact G| |]; apply MM; intros x y Hx Hy; unfold dmin2, dmax2;
      [destruct (dlt y x); auto|destruct (dlt x y); auto].
  Qed.
  Lemma mk_relm_P (Q : formula -> Prop) n o a b : Q FTrue -> Q FFalse -> Q (FRel o a b) -> P a -> P b -> pres Q (mk_relm fpow n o a b).
  Proof.
    intros H1 H2 H3 Ha Hb. unfold mk_relm. eapply pres_bind; [apply mk_sub_P; auto|]. intros d Hd.
    destruct d as [c| | | | | | | |]; try (now apply pres_ret). destruct (is_nan c); [now apply pres_ret|].
    eapply pres_bind; [apply pres_tell; exact I|]. intros _ _. apply pres_ret. destruct (relop_on o c); auto.
  Qed.
End Closed.
