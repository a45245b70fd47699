(** * The simplifying constructors preserve values *)
From Coq Require Import ZArith Reals Lra Lia List Bool ClassicalDescription.
From Flocq Require Import IEEE754.BinarySingleNaN.
From Verif Require Import Dbl DblProofs Syntax Sem FormulaCons FormulaConsProofs IEval StdInterp MathConv MathConvProofs Order ExprAlg SpecAlg PowProofs.
Import ListNotations.
Local Open Scope R_scope.

(** ** The computation monad *)
Lemma bind_val {A B} (x : comp A) (f : A -> comp B) r t : bind x f = (Val r, t) ->
  exists a t1 t2, x = (Val a, t1) /\ f a = (Val r, t2) /\ t = t1 ++ t2.
Proof.
  destruct x as [[a| | |] t1]; simpl; try discriminate.
  destruct (f a) as [r' t2] eqn:E. intros H; inversion H; subst. now exists a, t1, t2.
Qed.
Lemma ret_val {A} (a r : A) t : ret a = (Val r, t) -> r = a /\ t = [].
Proof. intros H; inversion H; auto. Qed.
Lemma tell_val s r t : tell s = (Val r, t) -> t = [s].
Proof. intros H; inversion H; auto. Qed.

Ltac inb H :=
  let a := fresh "a" in let t1 := fresh "t" in let t2 := fresh "t" in
  let H1 := fresh "H" in let H2 := fresh "H" in
  apply bind_val in H; destruct H as (a & t1 & t2 & H1 & H2 & ->).

Lemma B2R_done : B2R done = 1. Proof. exact (proj2 (dZ_exact 1 ltac:(cbn; lia))). Qed.
Lemma B2R_dtwo : B2R dtwo = 2. Proof. exact (proj2 (dZ_exact 2 ltac:(cbn; lia))). Qed.
Lemma B2R_dnone : B2R dnone = -1. Proof. exact (proj2 (dZ_exact (-1) ltac:(cbn; lia))). Qed.
Lemma fin_done : is_finite done = true. Proof. exact (proj1 (dZ_exact 1 ltac:(cbn; lia))). Qed.
Lemma fin_dtwo : is_finite dtwo = true. Proof. exact (proj1 (dZ_exact 2 ltac:(cbn; lia))). Qed.
Lemma fin_dnone : is_finite dnone = true. Proof. exact (proj1 (dZ_exact (-1) ltac:(cbn; lia))). Qed.
#[global] Opaque done dtwo dnone.

Lemma deq_B2R x y : is_finite y = true -> deq x y = true -> B2R x = B2R y.
Proof.
  intros Hy E. apply deq_true in E. rewrite (finite_d2e y) in E by auto.
  destruct (is_finite x) eqn:Fx; [rewrite (finite_d2e x Fx) in E; now injection E|].
  destruct x as [|[]| |]; try discriminate; simpl in *; congruence.
Qed.
Lemma deq_zero x : deq x dzero = true -> B2R x = 0.
Proof. intros E. apply deq_B2R in E; auto. Qed.
Lemma deq_one x : deq x done = true -> B2R x = 1.
Proof. intros E. apply deq_B2R in E; auto using fin_done. now rewrite E, B2R_done. Qed.
Lemma is_integer_int v : is_integer v = true -> isint (B2R v).
Proof. intros H. apply is_integer_spec in H. destruct H as (_ & z & _ & ->). now exists z. Qed.

Section Alg.
  Variables (uf : nat -> list R -> R) (rc : dbl -> dbl -> R) (fpow : dbl -> dbl -> dbl).
  Let M : interp := std uf rc.
  Notation ev := (evalE M).
  Notation df := (defE M stdD).
  Notation ok := (Forall (exact M)).
  Notation gets := (yields M stdD).

  Lemma mk_const_ev d rho : ev (mk_const d) rho = B2R d.
  Proof. unfold mk_const. simpl. destruct (deq d dzero) eqn:E; auto. now rewrite (deq_zero d E). Qed.
  Lemma mk_const_df d rho : df (mk_const d) rho. Proof. exact I. Qed.
  Lemma is_c_ev e v rho : is_finite v = true -> is_c e v = true -> ev e rho = B2R v.
  Proof. intros Hv. destruct e; try discriminate. simpl. now apply deq_B2R. Qed.
  Lemma is_c_0 e rho : is_c e dzero = true -> ev e rho = 0.
  Proof. intros H. now rewrite (is_c_ev e dzero). Qed.
  Lemma is_c_1 e rho : is_c e done = true -> ev e rho = 1.
  Proof. intros H. rewrite (is_c_ev e done); auto using fin_done. apply B2R_done. Qed.
  Lemma is_c_n1 e rho : is_c e dnone = true -> ev e rho = -1.
  Proof. intros H. rewrite (is_c_ev e dnone); auto using fin_dnone. apply B2R_dnone. Qed.

  Lemma gets_ret e rho v : df e rho -> ev e rho = v -> gets (ret e) rho v.
  Proof. intros H1 H2 r t E _. apply ret_val in E. destruct E as [-> _]. auto. Qed.
  Lemma gets_bind {A} (x : comp A) (f : A -> comp expr) rho v :
    (forall a t, x = (Val a, t) -> ok t -> gets (f a) rho v) -> gets (bind x f) rho v.
  Proof.
    intros H r t E Ht. inb E. apply Forall_app in Ht. destruct Ht as [H1' H2'].
    eapply H; eauto.
  Qed.
  Lemma gets_eq c rho v v' : v = v' -> gets c rho v -> gets c rho v'.
  Proof. now intros ->. Qed.
  Lemma gets_throw t rho v : gets (Throw, t) rho v. Proof. intros r u E; discriminate. Qed.
  Lemma gets_ub t rho v : gets (Ub, t) rho v. Proof. intros r u E; discriminate. Qed.
  Lemma gets_fuel t rho v : gets (Fuel, t) rho v. Proof. intros r u E; discriminate. Qed.

  (** ** Sums and products of operand maps *)
  Definition sumv (m : list (expr * dbl)) (rho : env) : R :=
    fold_right (fun p acc => match p with (a, k) => B2R k * ev a rho + acc end) 0 m.
  Definition sumd (m : list (expr * dbl)) (rho : env) : Prop :=
    fold_right (fun p acc => match p with (a, _) => df a rho /\ acc end) True m.
  Definition prodv (m : list (expr * expr)) (rho : env) : R :=
    fold_right (fun p acc => match p with (a, b) => powR (ev a rho) (ev b rho) * acc end) 1 m.
  Definition prodd (m : list (expr * expr)) (rho : env) : Prop :=
    fold_right (fun p acc => match p with (a, b) =>
      (df a rho /\ df b rho /\ pow_def (ev a rho) (ev b rho)) /\ acc end) True m.
  Lemma ev_add c m rho : ev (EAdd c m) rho = B2R c + sumv m rho.
  Proof.
    simpl. induction m as [|[a k] m IH]; simpl; [ring|]. rewrite IH. ring.
  Qed.
  Lemma ev_mul c m rho : ev (EMul c m) rho = B2R c * prodv m rho.
  Proof.
    simpl. induction m as [|[a b] m IH]; simpl; [ring|]. rewrite IH. ring.
  Qed.
  Lemma df_add c m rho : df (EAdd c m) rho = sumd m rho. Proof. reflexivity. Qed.
  Lemma df_mul c m rho : df (EMul c m) rho = prodd m rho. Proof. reflexivity. Qed.

  Lemma add_term_ev coeff t rho m m' tr : add_term coeff t m = (Val m', tr) -> ok tr -> df t rho -> sumd m rho ->
    sumd m' rho /\ sumv m' rho = B2R coeff * ev t rho + sumv m rho.
  Proof.
    revert m' tr; induction m as [|[k c] m IH]; intros m' tr E Ht Dt Dm; cbn [add_term add_map mul_term mul_map] in E.
    - apply ret_val in E. destruct E as [-> _]. simpl. auto.
    - destruct (cmpE t k).
      + inb E. inb H0. apply tell_val in H. subst. inversion H1; subst; clear H1.
        apply ret_val in H2. destruct H2 as [-> ->]. destruct Dm as [Dk Dm].
        inversion Ht as [|? ? Hk Ht']; subst. inversion Ht' as [|? ? Ha _]; subst.
        simpl in Hk, Ha. destruct Ha as [_ Ha].
        destruct (deq (dadd c coeff) dzero) eqn:Ez.
        * split; auto. apply deq_zero in Ez. rewrite Ha in Ez. simpl sumv. rewrite (Hk rho). 
          replace (sumv m rho) with ((B2R c + B2R coeff) * ev k rho + sumv m rho) at 1 by (rewrite Ez; ring). ring.
        * split; [split; auto|]. simpl. rewrite Ha, (Hk rho). ring.
      + apply ret_val in E. destruct E as [-> _]. simpl. auto.
      + inb E. apply ret_val in H0. destruct H0 as [-> ->]. destruct Dm as [Dk Dm].
        rewrite app_nil_r in Ht. destruct (IH _ _ H Ht Dt Dm) as [D' E'].
        split; [split; auto|]. simpl. rewrite E'. ring.
  Qed.
  Lemma add_map_ev ts rho m m' tr : add_map ts m = (Val m', tr) -> ok tr -> sumd ts rho -> sumd m rho ->
    sumd m' rho /\ sumv m' rho = sumv ts rho + sumv m rho.
  Proof.
    revert m m' tr; induction ts as [|[t c] ts IH]; intros m m' tr E Ht Dt Dm; cbn [add_term add_map mul_term mul_map] in E.
    - apply ret_val in E. destruct E as [-> _]. split; auto. simpl. ring.
    - inb E. apply Forall_app in Ht. destruct Ht as [O1 O2]. destruct Dt as [Dt Dts].
      destruct (add_term_ev _ _ _ _ _ _ H O1 Dt Dm) as [D1 E1].
      destruct (IH _ _ _ H0 O2 Dts D1) as [D2 E2]. split; auto. rewrite E2, E1. simpl. ring.
  Qed.

  (** ** Powers and quotients *)
  Lemma pow_pow_ev e1 e2 base rho v1 v2 x : df base rho -> ev e1 rho = powR (ev base rho) (B2R v1) ->
    ev e2 rho = B2R v2 -> pow_def (ev base rho) (B2R v1) -> df e1 rho -> df e2 rho ->
    pow_def (ev e1 rho) (ev e2 rho) -> x = powR (ev e1 rho) (ev e2 rho) ->
    gets (pow_pow e1 e2 base v1 v2) rho x.
  Proof.
    intros Db E1 E2 P1 D1 D2 P2 ->. unfold pow_pow.
    destruct (is_integer v1 && is_integer v2) eqn:Ei.
    - apply andb_true_iff in Ei. destruct Ei as [I1 I2]. apply is_integer_int in I1, I2.
      apply gets_bind. intros a t Ea Ha. inversion Ea; subst; clear Ea. inversion Ha as [|? ? Hx _]; subst.
      destruct Hx as [_ Hx].
      rewrite E1, E2 in *. destruct (powR_pow _ _ _ I1 I2 P1 P2) as [Pd Pe].
      apply gets_ret.
      + cbn [defE]. split; [auto|split; [exact I|]]. cbn [d_bin stdD bin_def].
        rewrite mk_const_ev, Hx. auto.
      + cbn [evalE M std i_bin binR]. fold M. rewrite mk_const_ev, Hx. exact Pe.
    - apply gets_ret; [|reflexivity]. cbn [defE]. auto.
  Qed.
  Lemma mk_pow_ev e1 e2 rho : df e1 rho -> df e2 rho -> pow_def (ev e1 rho) (ev e2 rho) ->
    gets (mk_pow fpow e1 e2) rho (powR (ev e1 rho) (ev e2 rho)).
  Proof.
    intros D1 D2 P. unfold mk_pow.
    assert (Dn : gets (ret (EBin BPow e1 e2)) rho (powR (ev e1 rho) (ev e2 rho))).
    { apply gets_ret; [|reflexivity]. cbn [defE]. auto. }
    destruct e2 as [v2| | | | | | | |]; try exact Dn.
    assert (G : gets (if deq v2 dzero then ret (EConst done)
            else if deq v2 done then ret e1
            else match e1 with
                 | EBin BPow base (EConst v1) => pow_pow e1 (EConst v2) base v1 v2
                 | EBin BPow base (EReal lb ub u) => bind (tell (SLit lb ub u)) (fun _ => pow_pow e1 (EConst v2) base (rep lb ub u) v2)
                 | EBin BPow _ _ => (Ub, [])
                 | _ => ret (EBin BPow e1 (EConst v2))
                 end) rho (powR (ev e1 rho) (ev (EConst v2) rho))).
    { destruct (deq v2 dzero) eqn:E0.
      { apply gets_ret; [exact I|]. cbn [evalE]. rewrite (deq_zero v2 E0), powR_x0. apply B2R_done. }
      destruct (deq v2 done) eqn:E1.
      { apply gets_ret; auto. cbn [evalE]. rewrite (deq_one v2 E1), powR_x1. reflexivity. }
      destruct e1 as [| | | | | |[]  b x| |]; try exact Dn.
      destruct D1 as (Db & Dx & Pd).
      destruct x as [v1|lb ub u| | | | | | |]; try apply gets_ub.
      - eapply pow_pow_ev; eauto. cbn [defE]. auto.
      - apply gets_bind. intros a t Ea Ha. inversion Ea; subst; clear Ea. inversion Ha as [|? ? Hx _]; subst.
        cbn [exact] in Hx. 
        eapply pow_pow_ev; eauto; try reflexivity.
        + cbn [evalE]. rewrite <- Hx. reflexivity.
        + rewrite <- Hx. exact Pd.
        + cbn [defE]. auto. }
    destruct e1 as [v1| | | | | | | |]; try exact G.
    destruct (pow_domain v1 v2); [|apply gets_throw].
    intros r t E Ht. inversion E; subst; clear E. inversion Ht as [|? ? Hx _]; subst; destruct Hx as [_ Hx].
    split; [exact I|]. rewrite mk_const_ev. exact Hx.
  Qed.

  Lemma mk_div_ev a b rho : df a rho -> df b rho -> ev b rho <> 0 ->
    gets (mk_div a b) rho (ev a rho / ev b rho).
  Proof.
    intros Da Db Nz. unfold mk_div. destruct (is_c b done) eqn:E1.
    { apply gets_ret; auto. rewrite (is_c_1 b rho E1). field. }
    assert (G : gets (if expr_eqb a b then ret (EConst done) else ret (EBin BDiv a b)) rho (ev a rho / ev b rho)).
    { destruct (expr_eqb a b) eqn:E.
      - apply expr_eqb_eq in E. subst. apply gets_ret; [exact I|]. cbn [evalE]. rewrite B2R_done. now field.
      - apply gets_ret; [|reflexivity]. cbn [defE]. auto. }
    destruct a as [v1| | | | | | | |]; try exact G. destruct b as [v2| | | | | | | |]; try exact G.
    destruct (deq v2 dzero); [apply gets_throw|].
    apply gets_bind. intros d t E Ht. inversion E; subst; clear E. inversion Ht as [|? ? Hx _]; subst; destruct Hx as [_ Hx].
    apply gets_ret; [exact I|]. rewrite mk_const_ev. exact Hx.
  Qed.

  Lemma mul_get_ev c m rho : prodd m rho -> gets (mul_get fpow c m) rho (B2R c * prodv m rho).
  Proof.
    intros Dm. unfold mul_get. destruct (deq c dzero) eqn:E0.
    { apply gets_ret; [exact I|]. rewrite (deq_zero c E0). simpl. ring. }
    assert (G : gets (ret (EMul c m)) rho (B2R c * prodv m rho)).
    { apply gets_ret; [exact Dm|]. apply ev_mul. }
    destruct m as [|[b e] m].
    { apply gets_ret; [exact I|]. rewrite mk_const_ev. simpl. ring. }
    destruct m as [|p m]; [|exact G].
    destruct (deq c done) eqn:E1; [|exact G].
    destruct Dm as [(Db & De & P) _]. eapply gets_eq; [|apply mk_pow_ev; auto].
    rewrite (deq_one c E1). simpl. ring.
  Qed.

  Lemma add_expr_ev e c m c' m' rho tr : add_expr fpow e (c, m) = (Val (c', m'), tr) -> ok tr ->
    df e rho -> sumd m rho -> sumd m' rho /\ B2R c' + sumv m' rho = ev e rho + (B2R c + sumv m rho).
  Proof.
    intros E Ht De Dm. unfold add_expr in E.
    assert (G : forall e', df e' rho -> bind (add_term done e' m) (fun m' => ret (c, m')) = (Val (c', m'), tr) ->
               sumd m' rho /\ B2R c' + sumv m' rho = ev e' rho + (B2R c + sumv m rho)).
    { clear E e De. intros e De E. inb E. apply ret_val in H0. destruct H0 as [E' ->]. inversion E'; subst; clear E'.
      rewrite app_nil_r in Ht. destruct (add_term_ev _ _ _ _ _ _ H Ht De Dm) as [D1 E1]. split; auto.
      rewrite E1, B2R_done. ring. }
    destruct e as [v| | |c0 ts|k ts| | | |]; try (apply (G _ De) in E; exact E).
    - inb E. apply ret_val in H0. destruct H0 as [E' ->]. inversion E'; subst; clear E'. inversion H; subst; clear H.
      rewrite app_nil_r in Ht. inversion Ht as [|? ? Hx _]; subst; destruct Hx as [_ Hx]. split; auto. rewrite Hx. simpl. ring.
    - inb E. inb H0. apply ret_val in H2. destruct H2 as [E' ->]. inversion E'; subst; clear E'.
      inversion H; subst; clear H. rewrite app_nil_r in Ht. inversion Ht as [|? ? Hx Ht']; subst; destruct Hx as [_ Hx].
      destruct (add_map_ev _ _ _ _ _ H1 Ht' De Dm) as [D1 E1]. split; auto. rewrite Hx, E1, ev_add. ring.
    - destruct (deq k done) eqn:Ek.
      { apply (G _ De) in E. exact E. }
      inb E. inb H0. apply ret_val in H2. destruct H2 as [E' ->]. inversion E'; subst; clear E'.
      rewrite app_nil_r in Ht. apply Forall_app in Ht. destruct Ht as [O1 O2].
      destruct (mul_get_ev done ts rho De _ _ H O1) as [Da Ea].
      destruct (add_term_ev _ _ _ _ _ _ H1 O2 Da Dm) as [D1 E1]. split; auto.
      rewrite E1, Ea, ev_mul, B2R_done. ring.
  Qed.

  Section Rec.
    Variables (radd rmul : expr -> expr -> comp expr).
    Hypothesis Hadd : forall a b rho, df a rho -> df b rho -> gets (radd a b) rho (ev a rho + ev b rho).
    Hypothesis Hmul : forall a b rho, df a rho -> df b rho -> gets (rmul a b) rho (ev a rho * ev b rho).

    Lemma add_get_ev f rho : sumd (snd f) rho -> gets (add_get rmul f) rho (B2R (fst f) + sumv (snd f) rho).
    Proof.
      destruct f as [c m]. cbn [fst snd]. intros Dm. unfold add_get.
      assert (G : gets (ret (EAdd c m)) rho (B2R c + sumv m rho)).
      { apply gets_ret; [exact Dm|]. apply ev_add. }
      destruct m as [|[t k] m].
      { apply gets_ret; [exact I|]. rewrite mk_const_ev. simpl. ring. }
      destruct m as [|p m]; [|exact G].
      destruct (deq c dzero) eqn:E; [|exact G]. destruct Dm as [Dt _].
      eapply gets_eq; [|apply Hmul; auto; apply mk_const_df]. rewrite mk_const_ev, (deq_zero c E). simpl. ring.
    Qed.
    Lemma sum_neg ts rho : sumd ts rho -> sumd (map (fun p => (fst p, dopp (snd p))) ts) rho /\
      sumv (map (fun p => (fst p, dopp (snd p))) ts) rho = - sumv ts rho.
    Proof.
      induction ts as [|[t k] ts IH]; simpl; intros H; [split; auto; ring|].
      destruct H as [H1 H2]. destruct (IH H2) as [D E]. split; auto. rewrite E.
      unfold dopp. rewrite B2R_Bopp. ring.
    Qed.
    Lemma neg_add_ev c ts rho : sumd ts rho -> gets (neg_add rmul c ts) rho (- (B2R c + sumv ts rho)).
    Proof.
      intros H. unfold neg_add. destruct (sum_neg ts rho H) as [D E].
      eapply gets_eq; [|apply add_get_ev; exact D]. cbn [fst snd]. rewrite E. unfold dopp. rewrite B2R_Bopp. ring.
    Qed.
    Lemma neg_mul_ev c ts rho : prodd ts rho -> gets (neg_mul fpow c ts) rho (- (B2R c * prodv ts rho)).
    Proof.
      intros H. unfold neg_mul. eapply gets_eq; [|apply mul_get_ev; exact H].
      unfold dopp. rewrite B2R_Bopp. ring.
    Qed.

    Lemma add_body_ev a b rho : df a rho -> df b rho -> gets (add_body fpow rmul a b) rho (ev a rho + ev b rho).
    Proof.
      intros Da Db. unfold add_body. destruct (is_c a dzero) eqn:Za.
      { apply gets_ret; auto. rewrite (is_c_0 a rho Za). ring. }
      destruct (is_c b dzero) eqn:Zb.
      { apply gets_ret; auto. rewrite (is_c_0 b rho Zb). ring. }
      assert (G : gets (bind (add_expr fpow a (dzero, [])) (fun f => bind (add_expr fpow b f) (fun g => add_get rmul g))) rho (ev a rho + ev b rho)).
      { apply gets_bind. intros [c1 m1] t1 E1 O1. apply gets_bind. intros [c2 m2] t2 E2 O2.
        destruct (add_expr_ev _ _ _ _ _ _ _ E1 O1 Da I) as [D1 V1].
        destruct (add_expr_ev _ _ _ _ _ _ _ E2 O2 Db D1) as [D2 V2].
        eapply gets_eq; [|apply add_get_ev; exact D2]. cbn [fst snd]. rewrite V2, V1. simpl. ring. }
      assert (L : forall c ts e, df e rho -> sumd ts rho ->
                gets (bind (add_expr fpow e (c, ts)) (fun f => add_get rmul f)) rho (B2R c + sumv ts rho + ev e rho)).
      { intros c ts e De Ds. apply gets_bind. intros [c1 m1] t1 E1 O1.
        destruct (add_expr_ev _ _ _ _ _ _ _ E1 O1 De Ds) as [D1 V1].
        eapply gets_eq; [|apply add_get_ev; exact D1]. cbn [fst snd]. rewrite V1. ring. }
      assert (LA : forall c ts e, e = EAdd c ts -> df e rho -> forall e', df e' rho ->
                gets (bind (add_expr fpow e' (c, ts)) (fun f => add_get rmul f)) rho (ev e rho + ev e' rho)).
      { intros c ts e -> De e' De'. eapply gets_eq; [|apply L; auto]. now rewrite ev_add. }
      destruct a as [va| | |ca ta| | | | |] eqn:Ea.
      4: { eapply LA; eauto. }
      all: destruct b as [vb| | |cb tb| | | | |] eqn:Eb; try exact G.
      all: try (eapply gets_eq; [apply Rplus_comm|]; eapply LA; eauto; fail).
      apply gets_bind. intros d t E Ht. inversion E; subst d t; clear E. inversion Ht as [|? ? Hx _]; subst; destruct Hx as [_ Hx].
      apply gets_ret; [exact I|]. rewrite mk_const_ev. exact Hx.
    Qed.

    Lemma mul_term_ev base ex rho m m' tr : mul_term radd base ex m = (Val m', tr) -> ok tr ->
      df base rho -> df ex rho -> pow_def (ev base rho) (ev ex rho) -> prodd m rho ->
      prodd m' rho /\ prodv m' rho = powR (ev base rho) (ev ex rho) * prodv m rho.
    Proof.
      revert m' tr; induction m as [|[k c] m IH]; intros m' tr E Ht Db De P Dm; cbn [add_term add_map mul_term mul_map] in E.
      - apply ret_val in E. destruct E as [-> _]. simpl. auto.
      - destruct (cmpE base k).
        + inb E. inb H0. apply tell_val in H. subst.
          apply ret_val in H2. destruct H2 as [-> ->]. destruct Dm as [(Dk & Dc & Pk) Dm].
          inversion Ht as [|? ? Hk Ht']; subst. rewrite app_nil_r in Ht'. cbn [exact] in Hk.
          destruct (Hadd c ex rho Dc De _ _ H1 Ht') as [Ds Es].
          rewrite (Hk rho) in *. destruct (powR_plus _ _ _ Pk P) as [Pp Pv].
          destruct (is_c a0 dzero) eqn:Ez.
          * split; auto. simpl prodv. rewrite <- Rmult_assoc, (Rmult_comm (powR _ (ev ex rho))), <- Pv, <- Es, (is_c_0 a0 rho Ez), powR_x0. ring.
          * split; [simpl; rewrite Es; auto|]. simpl. rewrite Es, Pv. ring.
        + apply ret_val in E. destruct E as [-> _]. simpl. auto.
        + inb E. apply ret_val in H0. destruct H0 as [-> ->]. destruct Dm as [Dk Dm].
          rewrite app_nil_r in Ht. destruct (IH _ _ H Ht Db De P Dm) as [D' E'].
          split; [split; auto|]. simpl. rewrite E'. ring.
    Qed.
    Lemma mul_add_term_ev base : forall ex rho m m' tr, mul_add_term radd rmul base ex m = (Val m', tr) -> ok tr ->
      df base rho -> df ex rho -> pow_def (ev base rho) (ev ex rho) -> prodd m rho ->
      prodd m' rho /\ prodv m' rho = powR (ev base rho) (ev ex rho) * prodv m rho.
    Proof.
      refine (expr_ind2 (fun base => forall ex rho m m' tr, mul_add_term radd rmul base ex m = (Val m', tr) -> ok tr ->
         df base rho -> df ex rho -> pow_def (ev base rho) (ev ex rho) -> prodd m rho ->
         prodd m' rho /\ prodv m' rho = powR (ev base rho) (ev ex rho) * prodv m rho) (fun _ => True)
         _ _ _ _ _ _ _ _ _ _ _ _ _ _ _ _ _ base); try exact I; try (intros; exact I);
        try (intros; eapply mul_term_ev; eauto; fail).
      intros o e1 e2 IH _ ex rho m m' tr E Ht Db De P Dm.
      destruct o; try (eapply mul_term_ev; eauto; fail).
      destruct e2 as [v| | | | | | | |]; try (eapply mul_term_ev; eauto; fail).
      destruct ex as [w| | | | | | | |]; try (eapply mul_term_ev; eauto; fail).
      cbn [mul_add_term] in E. destruct (is_integer v) eqn:Iv; [|eapply mul_term_ev; eauto].
      inb E. inb H0. apply tell_val in H. subst. inversion Ht as [|? ? Hw Ht']; subst. cbn [exact] in Hw.
      apply Forall_app in Ht'. destruct Ht' as [O1 O2].
      destruct Db as (Db & _ & Pd). cbn [d_bin stdD bin_def evalE] in Pd.
      destruct (Hmul (EConst v) (EConst w) rho I I _ _ H1 O1) as [Dx Ex].
      apply is_integer_int in Iv. cbn [evalE M std i_bin binR] in P. fold M in P.
      destruct (powR_pow _ _ _ Iv Hw Pd P) as [Pp Pv].
      cbn [evalE] in Ex.
      destruct (IH _ rho _ _ _ H2 O2 Db Dx ltac:(rewrite Ex; exact Pp) Dm) as [D' E'].
      split; auto. rewrite E', Ex, Pv. reflexivity.
    Qed.
    Lemma mul_map_ev ts rho m m' tr : mul_map radd rmul ts m = (Val m', tr) -> ok tr -> prodd ts rho -> prodd m rho ->
      prodd m' rho /\ prodv m' rho = prodv ts rho * prodv m rho.
    Proof.
      revert m m' tr; induction ts as [|[t c] ts IH]; intros m m' tr E Ht Dt Dm; cbn [add_term add_map mul_term mul_map] in E.
      - apply ret_val in E. destruct E as [-> _]. split; auto. simpl. ring.
      - inb E. apply Forall_app in Ht. destruct Ht as [O1 O2]. destruct Dt as [(Dt & Dc & P) Dts].
        destruct (mul_add_term_ev _ _ _ _ _ _ H O1 Dt Dc P Dm) as [D1 E1].
        destruct (IH _ _ _ H0 O2 Dts D1) as [D2 E2]. split; auto. rewrite E2, E1. simpl. ring.
    Qed.
    Lemma mul_expr_ev e c m c' m' rho tr : mul_expr radd rmul e (c, m) = (Val (c', m'), tr) -> ok tr ->
      df e rho -> prodd m rho -> prodd m' rho /\ B2R c' * prodv m' rho = ev e rho * (B2R c * prodv m rho).
    Proof.
      intros E Ht De Dm. unfold mul_expr in E. destruct (deq c dzero) eqn:E0.
      { apply ret_val in E. destruct E as [E _]. inversion E; subst. split; auto. rewrite (deq_zero c E0). ring. }
      destruct (is_c e dzero) eqn:Ez.
      { apply ret_val in E. destruct E as [E _]. inversion E; subst. split; [exact I|]. rewrite (is_c_0 e rho Ez). simpl. ring. }
      assert (G : forall b x, df b rho -> df x rho -> pow_def (ev b rho) (ev x rho) -> ev e rho = powR (ev b rho) (ev x rho) ->
          bind (mul_add_term radd rmul b x m) (fun m' => ret (c, m')) = (Val (c', m'), tr) ->
          prodd m' rho /\ B2R c' * prodv m' rho = ev e rho * (B2R c * prodv m rho)).
      { clear E. intros b x Db Dx P -> E. inb E. apply ret_val in H0. destruct H0 as [E' ->]. inversion E'; subst; clear E'.
        rewrite app_nil_r in Ht. destruct (mul_add_term_ev _ _ _ _ _ _ H Ht Db Dx P Dm) as [D1 E1]. split; auto.
        rewrite E1. ring. }
      assert (G1 : bind (mul_add_term radd rmul e (EConst done) m) (fun m' => ret (c, m')) = (Val (c', m'), tr) ->
          prodd m' rho /\ B2R c' * prodv m' rho = ev e rho * (B2R c * prodv m rho)).
      { apply G; auto; try exact I; cbn [evalE]; rewrite B2R_done; [apply pow_def_1|now rewrite powR_x1]. }
      destruct e as [v| | |c0 ts|k ts| |o b x| |]; try (apply G1 in E; exact E).
      - inb E. apply ret_val in H0. destruct H0 as [E' ->]. inversion E'; subst; clear E'. inversion H; subst; clear H.
        rewrite app_nil_r in Ht. inversion Ht as [|? ? Hx _]; subst; destruct Hx as [_ Hx]. split; auto. rewrite Hx. simpl. ring.
      - inb E. inb H0. apply ret_val in H2. destruct H2 as [E' ->]. inversion E'; subst; clear E'.
        inversion H; subst; clear H. rewrite app_nil_r in Ht. inversion Ht as [|? ? Hx Ht']; subst; destruct Hx as [_ Hx].
        destruct (mul_map_ev _ _ _ _ _ H1 Ht' De Dm) as [D1 E1]. split; auto. rewrite Hx, E1, ev_mul. ring.
      - destruct o; try (apply G1 in E; exact E).
        destruct De as (Db & Dx & P). apply (G b x Db Dx P eq_refl) in E. exact E.
    Qed.

    Lemma mul_flatten_ev a b rho : df a rho -> df b rho -> gets (mul_flatten fpow radd rmul a b) rho (ev a rho * ev b rho).
    Proof.
      intros Da Db. unfold mul_flatten.
      assert (L : forall c ts e, e = EMul c ts -> df e rho -> forall e', df e' rho ->
                gets (bind (mul_expr radd rmul e' (c, ts)) (fun f => mul_get fpow (fst f) (snd f))) rho (ev e rho * ev e' rho)).
      { intros c ts e -> De e' De'. apply gets_bind. intros [c1 m1] t1 E1 O1.
        destruct (mul_expr_ev _ _ _ _ _ _ _ E1 O1 De' De) as [D1 V1].
        eapply gets_eq; [|apply mul_get_ev; exact D1]. cbn [fst snd]. rewrite V1, ev_mul. ring. }
      assert (G : gets (if expr_eqb a b then mk_pow fpow a (EConst dtwo)
          else bind (mul_expr radd rmul a (done, [])) (fun f => bind (mul_expr radd rmul b f) (fun g => mul_get fpow (fst g) (snd g))))
          rho (ev a rho * ev b rho)).
      { destruct (expr_eqb a b) eqn:Eab.
        - apply expr_eqb_eq in Eab. subst b. eapply gets_eq; [|apply mk_pow_ev; auto; try exact I].
          + cbn [evalE]. rewrite B2R_dtwo. apply powR_x2.
          + cbn [evalE]. rewrite B2R_dtwo. apply pow_def_2.
        - apply gets_bind. intros [c1 m1] t1 E1 O1. apply gets_bind. intros [c2 m2] t2 E2 O2.
          destruct (mul_expr_ev _ _ _ _ _ _ _ E1 O1 Da I) as [D1 V1].
          destruct (mul_expr_ev _ _ _ _ _ _ _ E2 O2 Db D1) as [D2 V2].
          eapply gets_eq; [|apply mul_get_ev; exact D2]. cbn [fst snd]. rewrite V2, V1, B2R_done. simpl. ring. }
      destruct a as [va| | | |ca ta| | | |] eqn:Ea.
      5: { eapply L; eauto. }
      all: destruct b as [vb| | | |cb tb| | | |] eqn:Eb; try exact G.
      all: eapply gets_eq; [apply Rmult_comm|]; eapply L; eauto.
    Qed.

    Lemma mul_pows_ev a b rho : df a rho -> df b rho -> gets (mul_pows fpow radd rmul a b) rho (ev a rho * ev b rho).
    Proof.
      intros Da Db. unfold mul_pows.
      assert (F := mul_flatten_ev a b rho Da Db).
      assert (K : forall e1 e2 e3 v, df e1 rho -> df e2 rho -> df e3 rho -> pow_def (ev e1 rho) (ev e2 rho) ->
          pow_def (ev e1 rho) (ev e3 rho) -> v = powR (ev e1 rho) (ev e2 rho) * powR (ev e1 rho) (ev e3 rho) ->
          gets (bind (radd e2 e3) (fun s => mk_pow fpow e1 s)) rho v).
      { intros e1 e2 e3 v D1 D2 D3 P2 P3 ->. apply gets_bind. intros s t E Ht.
        destruct (Hadd e2 e3 rho D2 D3 _ _ E Ht) as [Ds Es].
        destruct (powR_plus _ _ _ P2 P3) as [Pp Pv]. rewrite <- Es in Pp, Pv. rewrite <- Pv. now apply mk_pow_ev. }
      assert (One : forall x, pow_def x (ev (EConst done) rho) /\ powR x (ev (EConst done) rho) = x).
      { intros x. cbn [evalE]. rewrite B2R_done. split; [apply pow_def_1|apply powR_x1]. }
      assert (KL : forall e1 e2, a = EBin BPow e1 e2 -> 
         gets (if expr_eqb e1 b then bind (radd e2 (EConst done)) (fun s => mk_pow fpow e1 s) else mul_flatten fpow radd rmul a b) rho (ev a rho * ev b rho)).
      { intros e1 e2 Ea. destruct (expr_eqb e1 b) eqn:E; [|exact F]. apply expr_eqb_eq in E. subst b a.
        destruct Da as (D1 & D2 & P). destruct (One (ev e1 rho)) as [O1 O2].
        apply K; auto; try exact I. rewrite O2. reflexivity. }
      destruct a as [| | | | | |oa a1 a2| |] eqn:Ea.
      7: destruct oa.
      8: { destruct b as [| | | | | |ob b1 b2| |] eqn:Eb; try (eapply KL; eauto; fail).
           destruct ob; try (eapply KL; eauto; fail).
           destruct (expr_eqb a1 b1) eqn:E; [|eapply KL; eauto].
           apply expr_eqb_eq in E. subst b1. destruct Da as (D1 & D2 & P), Db as (D3 & D4 & P').
           apply K; auto. }
      all: destruct b as [| | | | | |ob b1 b2| |] eqn:Eb; try exact F; destruct ob; try exact F;
           (destruct (expr_eqb b1 _) eqn:E; [|exact F]); apply expr_eqb_eq in E; subst b1;
           destruct Db as (D1 & D2 & P);
           match goal with |- gets (bind (radd _ _) (fun s => mk_pow fpow ?e s)) _ _ =>
             destruct (One (ev e rho)) as [O1 O2]; apply K; auto; try exact I; rewrite O2; reflexivity end.
    Qed.

    Lemma mul_neg_ev a b rho : df a rho -> df b rho -> gets (mul_neg fpow radd rmul a b) rho (ev a rho * ev b rho).
    Proof.
      intros Da Db. unfold mul_neg.
      assert (R : gets (mul_rest fpow radd rmul a b) rho (ev a rho * ev b rho)).
      { unfold mul_rest. destruct (is_c a dzero) eqn:Za.
        { apply gets_ret; auto. rewrite (is_c_0 a rho Za). ring. }
        destruct (is_c b dzero) eqn:Zb.
        { apply gets_ret; [exact I|]. rewrite (is_c_0 b rho Zb). simpl. ring. }
        assert (P := mul_pows_ev a b rho Da Db).
        destruct a as [va| | | | | | | |] eqn:Ea; try exact P. destruct b as [vb| | | | | | | |] eqn:Eb; try exact P.
        apply gets_bind. intros d t E Ht. inversion E; subst d t; clear E. inversion Ht as [|? ? Hx _]; subst; destruct Hx as [_ Hx].
        apply gets_ret; [exact I|]. rewrite mk_const_ev. exact Hx. }
      assert (R2 : gets match is_c b dnone, a with
          | true, EAdd c ts => neg_add rmul c ts
          | true, EMul c ts => neg_mul fpow c ts
          | _, _ => mul_rest fpow radd rmul a b
          end rho (ev a rho * ev b rho)).
      { destruct (is_c b dnone) eqn:Nb; [|exact R]. destruct a as [| | |c ts|c ts| | | |]; try exact R.
        - eapply gets_eq; [|apply neg_add_ev; exact Da]. rewrite ev_add, (is_c_n1 b rho Nb). ring.
        - eapply gets_eq; [|apply neg_mul_ev; exact Da]. rewrite ev_mul, (is_c_n1 b rho Nb). ring. }
      destruct (is_c a dnone) eqn:Na; [|exact R2]. destruct b as [| | |c ts|c ts| | | |]; try exact R2.
      - eapply gets_eq; [|apply neg_add_ev; exact Db]. rewrite ev_add, (is_c_n1 a rho Na). ring.
      - eapply gets_eq; [|apply neg_mul_ev; exact Db]. rewrite ev_mul, (is_c_n1 a rho Na). ring.
    Qed.

    Lemma mul_body_ev a b rho : df a rho -> df b rho -> gets (mul_body fpow radd rmul a b) rho (ev a rho * ev b rho).
    Proof.
      intros Da Db. unfold mul_body. destruct (is_c a done) eqn:Oa.
      { apply gets_ret; auto. rewrite (is_c_1 a rho Oa). ring. }
      destruct (is_c b done) eqn:Ob.
      { apply gets_ret; auto. rewrite (is_c_1 b rho Ob). ring. }
      assert (N := mul_neg_ev a b rho Da Db).
      assert (KR : forall k d, b = EBin BDiv (EConst k) d ->
          gets (bind (rmul (EConst k) a) (fun n => mk_div n d)) rho (ev a rho * ev b rho)).
      { intros k d ->. destruct Db as (_ & Dd & Nz). apply gets_bind. intros n t E Ht.
        destruct (Hmul (EConst k) a rho I Da _ _ E Ht) as [Dn En].
        eapply gets_eq; [|apply mk_div_ev; auto]. rewrite En. cbn [evalE M std i_bin binR]. fold M. unfold Rdiv. ring. }
      assert (KL : forall k d, a = EBin BDiv (EConst k) d ->
          gets (bind (rmul (EConst k) b) (fun n => mk_div n d)) rho (ev a rho * ev b rho)).
      { intros k d ->. destruct Da as (_ & Dd & Nz). apply gets_bind. intros n t E Ht.
        destruct (Hmul (EConst k) b rho I Db _ _ E Ht) as [Dn En].
        eapply gets_eq; [|apply mk_div_ev; auto]. rewrite En. cbn [evalE M std i_bin binR]. fold M. unfold Rdiv. ring. }
      destruct a as [| | | | | |oa a1 a2| |] eqn:Ea.
      7: destruct oa.
      7: { destruct b as [| | | | | |ob b1 b2| |] eqn:Eb.
           7: destruct ob.
           7: { assert (GG : gets (bind (rmul a1 b1) (fun n => bind (rmul a2 b2) (fun e => mk_div n e))) rho
                    (ev (EBin BDiv a1 a2) rho * ev (EBin BDiv b1 b2) rho)); [|destruct a1; exact GG].
                destruct Da as (D1 & D2 & Na), Db as (D3 & D4 & Nb).
                apply gets_bind. intros n t E Ht. apply gets_bind. intros e t' E' Ht'.
                destruct (Hmul a1 b1 rho D1 D3 _ _ E Ht) as [Dn En].
                destruct (Hmul a2 b2 rho D2 D4 _ _ E' Ht') as [De Ee].
                cbn [d_bin stdD bin_def] in Na, Nb.
                eapply gets_eq; [|apply mk_div_ev; auto].
                - rewrite En, Ee. cbn [evalE M std i_bin binR]. fold M. field. split; auto.
                - rewrite Ee. now apply Rmult_integral_contrapositive. }
           all: destruct a1; try exact N; eapply KL; eauto. }
      all: destruct b as [| | | | | |ob b1 b2| |] eqn:Eb; try exact N; destruct ob; try exact N;
           destruct b1; try exact N; eapply KR; eauto.
    Qed.
  End Rec.

  Lemma addmul_ev n : (forall a b rho, df a rho -> df b rho -> gets (mk_add fpow n a b) rho (ev a rho + ev b rho)) /\
                      (forall a b rho, df a rho -> df b rho -> gets (mk_mul fpow n a b) rho (ev a rho * ev b rho)).
  Proof.
    induction n as [|n [IHa IHm]]; [split; intros; apply gets_fuel|].
    split; intros a b rho Da Db; unfold mk_add, mk_mul; cbn [addmul fst snd].
    - now apply add_body_ev.
    - now apply mul_body_ev.
  Qed.
  Lemma mk_add_ev n a b rho : df a rho -> df b rho -> gets (mk_add fpow n a b) rho (ev a rho + ev b rho).
  Proof. apply addmul_ev. Qed.
  Lemma mk_mul_ev n a b rho : df a rho -> df b rho -> gets (mk_mul fpow n a b) rho (ev a rho * ev b rho).
  Proof. apply addmul_ev. Qed.
  Lemma mk_neg_ev n a rho : df a rho -> gets (mk_neg fpow n a) rho (- ev a rho).
  Proof.
    intros Da. unfold mk_neg.
    assert (G : gets (mk_mul fpow n (EConst dnone) a) rho (- ev a rho)).
    { eapply gets_eq; [|apply mk_mul_ev; auto; exact I]. cbn [evalE]. rewrite B2R_dnone. ring. }
    destruct a as [c| | |c ts|c ts| | | |]; try exact G.
    - apply gets_ret; [exact I|]. rewrite mk_const_ev. unfold dopp. rewrite B2R_Bopp. reflexivity.
    - eapply gets_eq; [|apply neg_add_ev; [apply mk_mul_ev|exact Da]]. now rewrite ev_add.
    - eapply gets_eq; [|apply neg_mul_ev; exact Da]. now rewrite ev_mul.
  Qed.
  Lemma mk_sub_ev n a b rho : df a rho -> df b rho -> gets (mk_sub fpow n a b) rho (ev a rho - ev b rho).
  Proof.
    intros Da Db. unfold mk_sub. apply gets_bind. intros b' t E Ht.
    destruct (mk_neg_ev n b rho Db _ _ E Ht) as [D' E']. eapply gets_eq; [|apply mk_add_ev; auto].
    rewrite E'. ring.
  Qed.
  Lemma mk_abs_ev a rho : df a rho -> gets (mk_abs a) rho (Rabs (ev a rho)).
  Proof.
    intros Da. unfold mk_abs.
    assert (G : gets (ret (EUn UAbs a)) rho (Rabs (ev a rho))).
    { apply gets_ret; [|reflexivity]. cbn [defE]. split; [auto|exact I]. }
    destruct a; try exact G. apply gets_ret; [exact I|]. rewrite mk_const_ev. unfold dabs. now rewrite B2R_Babs.
  Qed.
  Lemma mk_un_ev o a rho : df a rho -> un_def o (ev a rho) -> gets (mk_un o a) rho (unR o (ev a rho)).
  Proof.
    intros Da U.
    assert (G : gets (ret (EUn o a)) rho (unR o (ev a rho))).
    { apply gets_ret; [|reflexivity]. cbn [defE]. auto. }
    destruct o; try exact G; unfold mk_un.
    - now apply mk_abs_ev.
    - destruct a as [| | | | | |ob b x| |]; try exact G. destruct ob; try exact G.
      destruct (is_c x dtwo) eqn:E; [|exact G]. destruct Da as (Db & _ & _).
      eapply gets_eq; [|apply mk_abs_ev; auto]. cbn [unR evalE M std i_bin binR]. fold M.
      rewrite (is_c_ev x dtwo rho fin_dtwo E), B2R_dtwo. symmetry. apply sqrt_pow2.
  Qed.
  Lemma mk_bin_ev o a b rho : df a rho -> df b rho -> bin_def o (ev a rho) (ev b rho) ->
    gets (mk_bin fpow o a b) rho (binR o (ev a rho) (ev b rho)).
  Proof.
    intros Da Db U.
    assert (G : gets (ret (EBin o a b)) rho (binR o (ev a rho) (ev b rho))).
    { apply gets_ret; [|reflexivity]. cbn [defE]. auto. }
    assert (MM : forall pick, (forall x, binR o x x = x) ->
       (forall x y, is_finite x = true -> is_finite y = true -> B2R (pick x y) = binR o (B2R x) (B2R y)) ->
       gets (mk_mm o pick a b) rho (binR o (ev a rho) (ev b rho))).
    { intros pick Hid Hp. unfold mk_mm. destruct (expr_eqb a b) eqn:E.
      { apply expr_eqb_eq in E. subst. apply gets_ret; auto. }
      destruct a as [va| | | | | | | |]; try exact G. destruct b as [vb| | | | | | | |]; try exact G.
      apply gets_bind. intros [] t E' Ht. apply tell_val in E'. subst. inversion Ht as [|? ? Hx _]; subst; destruct Hx as [Fa Fb].
      apply gets_ret; [exact I|]. rewrite mk_const_ev. now apply Hp. }
    destruct o; unfold mk_bin.
    - now apply mk_div_ev.
    - now apply mk_pow_ev.
    - exact G.
    - apply MM; cbn [binR]. { intros x. apply Rmin_left. lra. }
      intros x y Fx Fy. unfold dmin2. destruct (dlt y x) eqn:E.
      + apply dlt_true in E. rewrite !finite_d2e in E by auto. apply ext_lt_fin in E. rewrite Rmin_right; lra.
      + destruct (Rle_dec (B2R x) (B2R y)) as [L|L]; [now rewrite Rmin_left|]. exfalso.
        assert (Hx : is_nan x = false) by (now destruct x). assert (Hy : is_nan y = false) by (now destruct y).
        assert (E2 : dlt y x = true).
        { apply dlt_spec; auto. rewrite !finite_d2e by auto. apply ext_lt_fin. lra. }
        congruence.
    - apply MM; cbn [binR]. { intros x. apply Rmax_left. lra. }
      intros x y Fx Fy. unfold dmax2. destruct (dlt x y) eqn:E.
      + apply dlt_true in E. rewrite !finite_d2e in E by auto. apply ext_lt_fin in E. rewrite Rmax_right; lra.
      + destruct (Rle_dec (B2R y) (B2R x)) as [L|L]; [now rewrite Rmax_left|]. exfalso.
        assert (Hx : is_nan x = false) by (now destruct x). assert (Hy : is_nan y = false) by (now destruct y).
        assert (E2 : dlt x y = true).
        { apply dlt_spec; auto. rewrite !finite_d2e by auto. apply ext_lt_fin. lra. }
        congruence.
  Qed.
  Lemma mk_ite_ev f a b rho : defF M stdD f rho -> df a rho -> df b rho ->
    df (mk_ite f a b) rho /\ (holds M f rho -> ev (mk_ite f a b) rho = ev a rho) /\
    (~ holds M f rho -> ev (mk_ite f a b) rho = ev b rho).
  Proof.
    intros Df Da Db. unfold mk_ite.
    assert (G : df (EIte f a b) rho /\ (holds M f rho -> ev (EIte f a b) rho = ev a rho) /\
      (~ holds M f rho -> ev (EIte f a b) rho = ev b rho)).
    { split; [cbn [defE]; auto|]. split; intros H; cbn [evalE];
        destruct (excluded_middle_informative _) as [K|K]; try reflexivity; exfalso; tauto. }
    destruct f; try exact G; (split; [auto|]); cbn [holds]; tauto.
  Qed.
  Lemma mk_relm_ev n op a b rho r t : mk_relm fpow n op a b = (Val r, t) -> ok t -> df a rho -> df b rho ->
    defF M stdD r rho /\ (holds M r rho <-> relR op (ev a rho) (ev b rho)).
  Proof.
    intros E Ht Da Db. unfold mk_relm in E. inb E. apply Forall_app in Ht. destruct Ht as [O1 O2].
    destruct (mk_sub_ev n a b rho Da Db _ _ H O1) as [Dd Ed].
    assert (G : ret (FRel op a b) = (Val r, t1) -> defF M stdD r rho /\ (holds M r rho <-> relR op (ev a rho) (ev b rho))).
    { intros K. apply ret_val in K. destruct K as [-> _]. split; [cbn [defF]; auto|apply iff_refl]. }
    destruct a0 as [c| | | | | | | |]; auto. destruct (is_nan c); auto.
    inb H0. apply tell_val in H1. subst. apply ret_val in H2. destruct H2 as [-> ->].
    inversion O2 as [|? ? Hx _]; subst. cbn [exact] in Hx. cbn [evalE] in Ed.
    assert (K : relR op (ev a rho) (ev b rho) <-> relR op (B2R c) 0).
    { rewrite Ed. destruct op; simpl; lra. }
    rewrite K, <- (relop_on_R op c Hx). destruct (relop_on op c); cbn [holds defF]; (split; [exact I|]); intuition discriminate.
  Qed.
End Alg.
