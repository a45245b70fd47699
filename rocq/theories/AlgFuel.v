(** * The recursion of + and * ends

    Fuel bounded by the depth of the operands is enough, and more fuel changes nothing. *)
From Coq Require Import ZArith List Bool Arith Lia.
From Flocq Require Import IEEE754.BinarySingleNaN.
From Verif Require Import Dbl Syntax FormulaCons MathConv Order ExprAlg.
Import ListNotations.
Local Open Scope comp_scope.
#[local] Opaque deq dZ done dzero dnone dtwo.

Lemma zero_not_one v : deq v dzero = true -> deq v done = false.
Proof. destruct v as [s|s| |s m e H]; intros E; try (destruct s; vm_compute in E; discriminate E); try (vm_compute in E; discriminate E). destruct s; vm_compute; reflexivity. Qed.
Lemma done_done : deq done done = true. Proof. vm_compute. reflexivity. Qed.
(** Ends, and a value satisfies [P] *)
Definition wp {A} (c : comp A) (P : A -> Prop) : Prop := match fst c with Val r => P r | Fuel => False | _ => True end.
Lemma wp_ret {A} (a : A) (P : A -> Prop) : P a -> wp (ret a) P. Proof. exact (fun H => H). Qed.
Lemma wp_bind {A B} (c : comp A) (f : A -> comp B) (P : A -> Prop) (Q : B -> Prop) : wp c P -> (forall a, P a -> wp (f a) Q) -> wp (bind c f) Q.
Proof. destruct c as [[a| | |] t]; cbn; auto. intros H K. specialize (K a H). unfold wp in *. destruct (f a) as [o u]. exact K. Qed.
Lemma wp_mono {A} (c : comp A) (P Q : A -> Prop) : wp c P -> (forall a, P a -> Q a) -> wp c Q.
Proof. unfold wp. destruct (fst c); auto. Qed.

(** (depth, depth of the terms of the sum the expression is seen as) *)
Fixpoint dd (e : expr) : nat * nat :=
  match e with
  | EConst _ => (3, 1)
  | EReal _ _ _ | EVar _ | EUf _ _ => (3, 3)
  | EAdd _ ts => let m := fold_right (fun p acc => match p with (t, _) => Nat.max (fst (dd t)) acc end) 3 ts in (S m, m)
  | EMul k ts =>
      let m := fold_right (fun p acc => match p with (b, x) => Nat.max (Nat.max (fst (dd b)) (S (snd (dd x)))) acc end) 3 ts in
      (S m, match ts with [(b, x)] => if negb (deq k done) && is_c x done then fst (dd b) else S m | _ => S m end)
  | EUn _ a => (S (fst (dd a)), S (fst (dd a)))
  | EBin BPow a b => let m := S (Nat.max (fst (dd a)) (S (snd (dd b)))) in (m, m)
  | EBin _ a b | EIte _ a b => let m := S (Nat.max (fst (dd a)) (fst (dd b))) in (m, m)
  end.
Definition dep (e : expr) : nat := fst (dd e).
Definition av (e : expr) : nat := snd (dd e).
Fixpoint tmax (ts : list (expr * dbl)) : nat := match ts with [] => 3 | (t, _) :: r => Nat.max (dep t) (tmax r) end.
Fixpoint pmax (ts : list (expr * expr)) : nat := match ts with [] => 3 | (b, x) :: r => Nat.max (Nat.max (dep b) (S (av x))) (pmax r) end.
Lemma tmax_fold ts : fold_right (fun p acc => match p with (t, _) => Nat.max (fst (dd t)) acc end) 3 ts = tmax ts.
Proof. induction ts as [|[t c] ts IH]; cbn [fold_right tmax]; [reflexivity|]. rewrite IH. reflexivity. Qed.
Lemma pmax_fold ts : fold_right (fun p acc => match p with (b, x) => Nat.max (Nat.max (fst (dd b)) (S (snd (dd x)))) acc end) 3 ts = pmax ts.
Proof. induction ts as [|[t c] ts IH]; cbn [fold_right pmax]; [reflexivity|]. rewrite IH. reflexivity. Qed.
Lemma dep_add c ts : dep (EAdd c ts) = S (tmax ts). Proof. unfold dep. cbn [dd]. rewrite tmax_fold. reflexivity. Qed.
Lemma av_add c ts : av (EAdd c ts) = tmax ts. Proof. unfold av. cbn [dd]. rewrite tmax_fold. reflexivity. Qed.
Lemma dep_mul c ts : dep (EMul c ts) = S (pmax ts). Proof. unfold dep. cbn [dd]. rewrite pmax_fold. reflexivity. Qed.
Lemma av_mul c ts : av (EMul c ts) = match ts with [(b, x)] => if negb (deq c done) && is_c x done then dep b else S (pmax ts) | _ => S (pmax ts) end.
Proof. unfold av. cbn [dd]. rewrite pmax_fold. destruct ts as [|[b x] [|]]; reflexivity. Qed.
Lemma dep_pow a b : dep (EBin BPow a b) = S (Nat.max (dep a) (S (av b))). Proof. reflexivity. Qed.
Lemma dep_div a b : dep (EBin BDiv a b) = S (Nat.max (dep a) (dep b)). Proof. reflexivity. Qed.
Lemma av_bin o a b : av (EBin o a b) = dep (EBin o a b). Proof. destruct o; reflexivity. Qed.
Lemma dep_const c : dep (EConst c) = 3. Proof. reflexivity. Qed.
Lemma av_const c : av (EConst c) = 1. Proof. reflexivity. Qed.
Lemma dep_pos e : 3 <= dep e.
Proof.
  unfold dep. revert e. fix IH 1. intros e. destruct e as [| | |c ts|c ts|o a|o a b|f a b|]; try (cbn; lia).
  - cbn [dd fst]. rewrite tmax_fold. induction ts as [|[t k] ts IHt]; cbn [tmax]; lia.
  - cbn [dd fst]. rewrite pmax_fold. induction ts as [|[t k] ts IHt]; cbn [pmax]; lia.
  - cbn [dd fst]. pose proof (IH a). lia.
  - pose proof (IH a). destruct o; cbn [dd fst]; lia.
  - cbn [dd fst]. pose proof (IH a). lia.
Qed.
Lemma av_pos e : 1 <= av e.
Proof.
  unfold av. destruct e as [| | |c ts|c ts| |[]| |]; cbn [dd fst snd]; try lia.
  - rewrite tmax_fold. induction ts as [|[t k] ts IH]; cbn [tmax]; lia.
  - destruct ts as [|[b x] [|]]; try lia. destruct (_ && _); [|lia]. pose proof (dep_pos b). unfold dep in *. lia.
Qed.
Lemma tmax_pos ts : 3 <= tmax ts. Proof. induction ts as [|[t c] ts IH]; cbn [tmax]; lia. Qed.
Lemma pmax_pos ts : 3 <= pmax ts. Proof. induction ts as [|[t c] ts IH]; cbn [pmax]; lia. Qed.
Lemma av_dep e : av e <= dep e.
Proof.
  destruct e as [| | |c ts|c ts| |o a b| |]; [cbn; lia|cbn; lia|cbn; lia| | |cbn; lia| |cbn; lia|cbn; lia].
  - rewrite av_add, dep_add. lia.
  - rewrite av_mul, dep_mul. destruct ts as [|[b x] [|]]; try lia. destruct (_ && _); [|lia]. cbn [pmax]. lia.
  - rewrite av_bin. lia.
Qed.
Lemma av_nc e : is_const e = false -> 3 <= av e.
Proof.
  unfold av. destruct e as [| | |c ts|c ts|o a|o a b|f a b|]; cbn [dd fst snd]; intros H; try discriminate H; try lia.
  - rewrite tmax_fold. apply tmax_pos.
  - rewrite pmax_fold. pose proof (pmax_pos ts). destruct ts as [|[b x] [|]]; try lia. destruct (_ && _); [|lia]. exact (dep_pos b).
  - pose proof (dep_pos a). unfold dep in *. lia.
  - pose proof (dep_pos a). unfold dep in *. destruct o; cbn [snd]; lia.
  - pose proof (dep_pos a). unfold dep in *. lia.
Qed.
Lemma av_leaf e : match e with EConst _ | EAdd _ _ | EMul _ _ => True | _ => dep e <= av e end.
Proof. destruct e as [| | | | | |[]| |]; cbn; lia. Qed.
#[local] Opaque dep av.
Ltac dpos := repeat match goal with
  | |- context [dep ?e] => lazymatch goal with H : 3 <= dep e |- _ => fail | _ => pose proof (dep_pos e); pose proof (av_dep e); pose proof (av_pos e) end
  end.

Section Term.
  Variable fpow : dbl -> dbl -> dbl.
  Notation mkpow := (mk_pow fpow). Notation mget := (mul_get fpow).

  Lemma mkc_dep c : dep (mk_const c) = 3. Proof. reflexivity. Qed.
  Lemma mkc_av c : av (mk_const c) = 1. Proof. reflexivity. Qed.
  Lemma powpow_wp e1 e2 base v1 v2 d : dep (EBin BPow e1 e2) <= d -> S (Nat.max (dep base) 2) <= d -> wp (pow_pow e1 e2 base v1 v2) (fun r => dep r <= d).
  Proof.
    intros H1 H2. unfold pow_pow. destruct (_ && _); [|exact H1]. unfold wp. cbn. rewrite dep_pow. unfold mk_const. rewrite av_const. exact H2.
  Qed.
  Lemma mkpow_wp b x : wp (mkpow b x) (fun r => dep r <= S (Nat.max (dep b) (S (av x))) /\ (is_c x done = true -> dep r <= dep b)).
  Proof.
    unfold mk_pow. assert (Base : forall r, r = EBin BPow b x -> dep r <= S (Nat.max (dep b) (S (av x)))) by (intros r ->; rewrite dep_pow; lia).
    destruct x as [v2| | | | | | | |]; try (apply wp_ret; split; [now apply Base|discriminate]).
    assert (K : is_const b = false -> wp (if deq v2 dzero then ret (EConst done) else if deq v2 done then ret b else match b with
                 | EBin BPow base (EConst v1) => pow_pow b (EConst v2) base v1 v2
                 | EBin BPow base (EReal lb ub u) => tell (SLit lb ub u) ;;; pow_pow b (EConst v2) base (rep lb ub u) v2
                 | EBin BPow _ _ => (Ub, [])
                 | _ => ret (EBin BPow b (EConst v2))
                 end) (fun r => dep r <= S (Nat.max (dep b) (S (av (EConst v2)))) /\ (is_c (EConst v2) done = true -> dep r <= dep b))).
    { intros Hb. destruct (deq v2 dzero) eqn:E0.
      - apply wp_ret. split; [rewrite dep_const; dpos; lia|]. cbn [is_c]. intros E1. exfalso. rewrite (zero_not_one _ E0) in E1. discriminate.
      - destruct (deq v2 done) eqn:E1; [apply wp_ret; split; [lia|intros _; lia]|]. cbn [is_c]. rewrite E1.
        assert (Z : forall c : comp expr, wp c (fun r => dep r <= S (Nat.max (dep b) (S (av (EConst v2))))) -> wp c (fun r => dep r <= S (Nat.max (dep b) (S (av (EConst v2)))) /\ (false = true -> dep r <= dep b))).
        { intros c Hc. apply (wp_mono _ _ _ Hc). intros r Hr. split; [exact Hr|discriminate]. }
        apply Z. destruct b as [| | | | | |o a0 a1| |]; try (apply wp_ret; apply Base; reflexivity). destruct o; try (apply wp_ret; apply Base; reflexivity).
        destruct a1; try exact Logic.I.
        + apply powpow_wp; [apply Base; reflexivity|]. rewrite (dep_pow a0), av_const. lia.
        + apply (wp_bind _ _ (fun _ => True)); [exact Logic.I|]. intros _ _. apply powpow_wp; [apply Base; reflexivity|]. rewrite (dep_pow a0). pose proof (av_pos (EReal lb ub use_lb)). lia. }
    destruct b as [v1| | | | | | | |]; try (apply K; reflexivity).
    destruct (pow_domain v1 v2); [|exact Logic.I]. unfold wp. cbn [fst]. split; [rewrite mkc_dep, dep_const; lia|]. intros _. rewrite mkc_dep, dep_const. lia.
  Qed.

  Definition avm (m : list (expr * expr)) : nat := match m with [(b, x)] => if is_c x done then dep b else S (pmax m) | _ => S (pmax m) end.
  Lemma avm_le m : avm m <= S (pmax m).
  Proof. destruct m as [|[b x] [|]]; cbn [avm]; try lia. destruct (is_c x done); [|lia]. cbn [pmax]. lia. Qed.
  Lemma mget_wp c m : wp (mget c m) (fun r => dep r <= S (pmax m) /\ (m <> [] -> av r <= avm m) /\ (m = [] -> is_const r = true) /\ (m <> [] -> deq c done = true -> dep r <= avm m)).
  Proof.
    unfold mul_get. destruct (deq c dzero).
    - apply wp_ret. rewrite dep_const, av_const. pose proof (pmax_pos m). assert (3 <= avm m) by (unfold avm; destruct m as [|[b x] [|]]; try lia; destruct (is_c x done); [apply dep_pos|lia]). split; [lia|]. split; [intros _; lia|]. split; [reflexivity|]. intros _ _. lia.
    - destruct m as [|[b x] [|q m]].
      + apply wp_ret. rewrite mkc_dep. split; [cbn [pmax]; lia|]. split; [congruence|]. split; [reflexivity|congruence].
      + destruct (deq c done) eqn:E.
        * apply (wp_mono _ _ _ (mkpow_wp b x)). intros r [H1 H2]. cbn [pmax avm]. pose proof (av_dep r). assert (dep r <= (if is_c x done then dep b else S (Nat.max (Nat.max (dep b) (S (av x))) 3))) by (destruct (is_c x done); [exact (H2 eq_refl)|lia]).
          split; [lia|]. split; [intros _; lia|]. split; [discriminate|]. intros _ _. assumption.
        * apply wp_ret. rewrite dep_mul. split; [lia|]. split; [intros _; rewrite av_mul, E; cbn [negb andb avm]; destruct (is_c x done); lia|]. split; [discriminate|]. discriminate.
      + apply wp_ret. rewrite dep_mul. split; [lia|]. split; [intros _; rewrite av_mul; destruct q; cbn [avm]; lia|]. split; [discriminate|]. intros _ _. destruct q. cbn [avm]. lia.
  Qed.
  Lemma add_term_wp k t m : wp (add_term k t m) (fun m' => tmax m' <= Nat.max (dep t) (tmax m)).
  Proof.
    induction m as [|[q c] m IH]; cbn [add_term].
    - apply wp_ret. cbn [tmax]. lia.
    - destruct (cmpE t q).
      + unfold wp. cbn. destruct (deq _ _); cbn [tmax]; lia.
      + apply wp_ret. cbn [tmax]. lia.
      + apply (wp_bind _ _ _ _ IH). intros m'' H. apply wp_ret. cbn [tmax]. lia.
  Qed.
  Lemma add_map_wp ts : forall m, wp (add_map ts m) (fun m' => tmax m' <= Nat.max (tmax ts) (tmax m)).
  Proof.
    induction ts as [|[t c] ts IH]; intros m; cbn [add_map tmax].
    - apply wp_ret. pose proof (tmax_pos m). lia.
    - apply (wp_bind _ _ _ _ (add_term_wp c t m)). intros m' H. apply (wp_mono _ _ _ (IH m')). intros m'' H'. lia.
  Qed.
  Lemma add_expr_wp e c m : wp (add_expr fpow e (c, m)) (fun f => tmax (snd f) <= Nat.max (av e) (tmax m)).
  Proof.
    assert (One : forall t, dep t <= av e -> wp (m' <- add_term done t m ;; ret (c, m')) (fun f => tmax (snd f) <= Nat.max (av e) (tmax m))).
    { intros t Ht. apply (wp_bind _ _ _ _ (add_term_wp done t m)). intros m' H. apply wp_ret. cbn [snd]. lia. }
    destruct e as [v| | |c0 ts|k ts|o a|o a b|f a b|u vs]; cbn [add_expr].
    - unfold wp. cbn. lia.
    - apply One. exact (av_leaf (EReal lb ub use_lb)).
    - apply One. exact (av_leaf (EVar v)).
    - unfold fadd. apply (wp_bind _ _ (fun _ => True)); [exact Logic.I|]. intros c' _. apply (wp_bind _ _ _ _ (add_map_wp ts m)). intros m' H. apply wp_ret. cbn [snd]. rewrite av_add. exact H.
    - destruct (deq k done) eqn:E.
      + apply One. rewrite av_mul, dep_mul, E. cbn [negb andb]. destruct ts as [|[b x] [|]]; lia.
      + apply (wp_bind _ _ _ _ (mget_wp done ts)). intros t (H1 & H2 & H3 & H4). apply (wp_bind _ _ _ _ (add_term_wp k t m)). intros m' H. apply wp_ret. cbn [snd].
        assert (dep t <= av (EMul k ts)). { rewrite av_mul, E. cbn [negb andb]. destruct ts as [|[b x] [|]]; try lia. specialize (H4 ltac:(discriminate) done_done). cbn [avm] in H4. exact H4. }
        lia.
    - apply One. exact (av_leaf (EUn o a)).
    - apply One. exact (av_leaf (EBin o a b)).
    - apply One. exact (av_leaf (EIte f a b)).
    - apply One. exact (av_leaf (EUf u vs)).
  Qed.

  Lemma mkdiv_wp a b : wp (mk_div a b) (fun r => av r <= S (Nat.max (dep a) (dep b))).
  Proof.
    unfold mk_div. destruct (is_c b done); [apply wp_ret; pose proof (av_dep a); lia|].
    assert (G : wp (if expr_eqb a b then ret (EConst done) else ret (EBin BDiv a b)) (fun r => av r <= S (Nat.max (dep a) (dep b)))).
    { destruct (expr_eqb a b); apply wp_ret; [rewrite av_const; lia|rewrite av_bin, dep_div; lia]. }
    destruct a as [v1| | | | | | | |]; try exact G. destruct b as [v2| | | | | | | |]; try exact G.
    destruct (deq v2 dzero); [exact Logic.I|]. unfold wp. cbn. unfold mk_const. rewrite av_const. lia.
  Qed.

  Section Rec.
    Variables (radd rmul : expr -> expr -> comp expr) (a0 : nat).
    Hypothesis Hcc : forall a b, wp (rmul (EConst a) (EConst b)) (fun r => is_const r = true).
    Hypothesis Hra : forall l r, av l <= a0 -> av r <= a0 -> wp (radd l r) (fun s => av s <= Nat.max (av l) (av r)).
    Definition xs_ok (m : list (expr * expr)) : Prop := Forall (fun p => av (snd p) <= a0) m.
    Definition joins (base x : expr) (m m' : list (expr * expr)) : Prop := xs_ok m' /\ pmax m' <= Nat.max (Nat.max (dep base) (S (av x))) (pmax m).

    Lemma mul_term_wp base x m : av x <= a0 -> xs_ok m -> wp (mul_term radd base x m) (joins base x m).
    Proof.
      intros Hx Hm. unfold joins, xs_ok in *. induction Hm as [|[b e] m He Hm IH]; cbn [mul_term].
      - apply wp_ret. split; [repeat constructor; exact Hx|]. cbn [pmax]. lia.
      - cbn [snd] in He. destruct (cmpE base b).
        + apply (wp_bind _ _ (fun _ => True)); [exact Logic.I|]. intros _ _. apply (wp_bind _ _ _ _ (Hra e x He Hx)). intros s Hs. apply wp_ret. destruct (is_c s dzero).
          * split; [exact Hm|]. cbn [pmax]. lia.
          * split; [constructor; [cbn [snd]; lia|exact Hm]|]. cbn [pmax]. lia.
        + apply wp_ret. split; [repeat constructor; assumption|]. cbn [pmax]. lia.
        + apply (wp_bind _ _ _ _ IH). intros m' [H1 H2]. apply wp_ret. split; [constructor; assumption|]. cbn [pmax]. lia.
    Qed.
    Lemma mul_add_term_wp base : forall x m, 1 <= a0 -> av x <= a0 -> xs_ok m -> wp (mul_add_term radd rmul base x m) (joins base x m).
    Proof.
      induction base as [base IH] using (well_founded_induction (Wf_nat.well_founded_ltof _ dep)). intros x m Ha Hx Hm.
      destruct base as [| | | | | |o e1 e2| |]; try (apply mul_term_wp; assumption).
      destruct o; try (apply mul_term_wp; assumption). destruct e2 as [v| | | | | | | |]; try (apply mul_term_wp; assumption). destruct x as [w| | | | | | | |]; try (apply mul_term_wp; assumption).
      cbn [mul_add_term]. destruct (is_integer v); [|apply mul_term_wp; assumption].
      apply (wp_bind _ _ (fun _ => True)); [exact Logic.I|]. intros _ _. apply (wp_bind _ _ _ _ (Hcc v w)). intros y Hy. destruct y as [u| | | | | | | |]; try discriminate Hy.
      assert (L : dep e1 < dep (EBin BPow e1 (EConst v))) by (rewrite dep_pow; lia).
      apply (wp_mono _ _ _ (IH e1 L (EConst u) m Ha Hx Hm)). intros m' [H1 H2]. split; [exact H1|]. rewrite av_const in H2. rewrite av_const. lia.
    Qed.
    Lemma mul_map_wp ts : 1 <= a0 -> xs_ok ts -> forall m, xs_ok m -> wp (mul_map radd rmul ts m) (fun m' => xs_ok m' /\ pmax m' <= Nat.max (pmax ts) (pmax m)).
    Proof.
      intros Ha Ht. induction Ht as [|[b x] ts Hx Ht IH]; intros m Hm; cbn [mul_map pmax].
      - apply wp_ret. split; [exact Hm|]. lia.
      - apply (wp_bind _ _ _ _ (mul_add_term_wp b x m Ha Hx Hm)). intros m' [H1 H2]. apply (wp_mono _ _ _ (IH m' H1)). intros m'' [H3 H4]. split; [exact H3|]. lia.
    Qed.
    Lemma pmax_xs ts : pmax ts <= S a0 -> xs_ok ts.
    Proof. unfold xs_ok. induction ts as [|[b x] ts IH]; cbn [pmax]; intros H; constructor; [cbn [snd]; lia|apply IH; lia]. Qed.
    Lemma mul_expr_wp e c m : 1 <= a0 -> dep e <= S (S a0) -> xs_ok m -> wp (mul_expr radd rmul e (c, m)) (fun f => xs_ok (snd f)).
    Proof.
      intros Ha He Hm. unfold mul_expr. destruct (deq c dzero); [exact Hm|]. destruct (is_c e dzero); [apply wp_ret; constructor|].
      assert (G : wp (m' <- mul_add_term radd rmul e (EConst done) m ;; ret (c, m')) (fun f => xs_ok (snd f))).
      { apply (wp_bind _ _ _ _ (mul_add_term_wp e (EConst done) m Ha ltac:(rewrite av_const; exact Ha) Hm)). intros m' [H _]. exact H. }
      destruct e as [v| | |c0 ts|k ts|o a|o a b|f a b|u vs]; try exact G.
      - unfold wp. cbn. exact Hm.
      - apply (wp_bind _ _ (fun _ => True)); [exact Logic.I|]. intros c' _. rewrite dep_mul in He. apply (wp_bind _ _ _ _ (mul_map_wp ts Ha (pmax_xs ts ltac:(lia)) m Hm)). intros m' [H _]. exact H.
      - destruct o; try exact G. rewrite dep_pow in He. apply (wp_bind _ _ _ _ (mul_add_term_wp a b m Ha ltac:(lia) Hm)). intros m' [H _]. exact H.
    Qed.
    Lemma mget_any c m : wp (mget c m) (fun _ => True).
    Proof. apply (wp_mono _ _ _ (mget_wp c m)). auto. Qed.
    Lemma mkpow_any b x : wp (mkpow b x) (fun _ => True).
    Proof. apply (wp_mono _ _ _ (mkpow_wp b x)). auto. Qed.

    Lemma flatten_wp l r : 1 <= a0 -> dep l <= S (S a0) -> dep r <= S (S a0) -> wp (mul_flatten fpow radd rmul l r) (fun _ => True).
    Proof.
      intros Ha Hl Hr. unfold mul_flatten.
      assert (M : forall e c ts, dep e <= S (S a0) -> dep (EMul c ts) <= S (S a0) -> wp (f <- mul_expr radd rmul e (c, ts) ;; mget (fst f) (snd f)) (fun _ => True)).
      { intros e c ts He Hm. rewrite dep_mul in Hm. apply (wp_bind _ _ _ _ (mul_expr_wp e c ts Ha He (pmax_xs ts ltac:(lia)))). intros f _. apply mget_any. }
      assert (G : wp (if expr_eqb l r then mkpow l (EConst dtwo) else f <- mul_expr radd rmul l (done, []) ;; g <- mul_expr radd rmul r f ;; mget (fst g) (snd g)) (fun _ => True)).
      { destruct (expr_eqb l r); [apply mkpow_any|]. apply (wp_bind _ _ _ _ (mul_expr_wp l done [] Ha Hl ltac:(constructor))). intros [c m] Hm. cbn [snd] in Hm.
        apply (wp_bind _ _ _ _ (mul_expr_wp r c m Ha Hr Hm)). intros g _. apply mget_any. }
      destruct l; try (apply M; assumption); destruct r; try (apply M; assumption); exact G.
    Qed.
    Lemma pows_wp l r : 1 <= a0 -> dep l <= S (S a0) -> dep r <= S (S a0) -> wp (mul_pows fpow radd rmul l r) (fun _ => True).
    Proof.
      intros Ha Hl Hr. pose proof (flatten_wp l r Ha Hl Hr) as F.
      assert (P : forall b e1 e2, av e1 <= a0 -> av e2 <= a0 -> wp (s <- radd e1 e2 ;; mkpow b s) (fun _ => True)).
      { intros b e1 e2 H1 H2. apply (wp_bind _ _ _ _ (Hra e1 e2 H1 H2)). intros s _. apply mkpow_any. }
      assert (X : forall o a b, dep (EBin o a b) <= S (S a0) -> o = BPow -> av b <= a0) by (intros o a b H ->; rewrite dep_pow in H; lia).
      assert (One : av (EConst done) <= a0) by (rewrite av_const; exact Ha).
      unfold mul_pows. destruct l as [| | | | | |ol l1 l2| |]; destruct r as [| | | | | |or r1 r2| |]; try exact F;
        repeat (match goal with
          | |- wp (match ?o with _ => _ end) _ => first [is_var o; destruct o | destruct (expr_eqb _ _)]
          | |- wp (mul_flatten _ _ _ _ _) _ => exact F
          | |- wp (bind _ _) _ => apply P; first [exact One | eapply X; [eassumption|reflexivity]]
          end).
    Qed.

    (** ** A product with a constant *)
    Variable t0 : nat.
    Hypothesis Hcm : forall t k, dep t <= t0 -> wp (rmul t (EConst k)) (fun r => av r <= dep t).
    Lemma add_get_wp c m d : tmax m <= d -> (forall t k, m = [(t, k)] -> dep t <= t0) -> wp (add_get rmul (c, m)) (fun r => av r <= d).
    Proof.
      intros Hd Ht. pose proof (tmax_pos m). unfold add_get. destruct m as [|[t k] [|q m]].
      - apply wp_ret. rewrite mkc_av. lia.
      - destruct (deq c dzero).
        + apply (wp_mono _ _ _ (Hcm t _ (Ht t k eq_refl))). intros r Hr. cbn [tmax] in Hd. lia.
        + apply wp_ret. rewrite av_add. exact Hd.
      - apply wp_ret. rewrite av_add. exact Hd.
    Qed.
    Lemma add_body_wp l r : av l <= t0 -> av r <= t0 -> wp (add_body fpow rmul l r) (fun s => av s <= Nat.max (av l) (av r)).
    Proof.
      intros Hl Hr. unfold add_body. destruct (is_c l dzero); [apply wp_ret; lia|]. destruct (is_c r dzero); [apply wp_ret; lia|].
      pose proof (av_pos l). pose proof (av_pos r).
      assert (G0 : forall c m, tmax m <= Nat.max (av l) (av r) -> wp (add_get rmul (c, m)) (fun s => av s <= Nat.max (av l) (av r))).
      { intros c m H'. apply add_get_wp; [exact H'|]. intros t k ->. cbn [tmax] in H'. lia. }
      assert (G1 : forall e c ts, (e = l /\ r = EAdd c ts) \/ (e = r /\ l = EAdd c ts) -> wp (f <- add_expr fpow e (c, ts) ;; add_get rmul f) (fun s => av s <= Nat.max (av l) (av r))).
      { intros e c ts H'. apply (wp_bind _ _ _ _ (add_expr_wp e c ts)). intros [c' m'] Hf. apply G0. cbn [snd] in Hf. destruct H' as [[-> ->]|[-> ->]]; rewrite av_add; lia. }
      assert (G2 : is_const l && is_const r = false -> wp (f <- add_expr fpow l (dzero, []) ;; g <- add_expr fpow r f ;; add_get rmul g) (fun s => av s <= Nat.max (av l) (av r))).
      { intros Nc. apply (wp_bind _ _ _ _ (add_expr_wp l dzero [])). intros [c m] Hf. apply (wp_bind _ _ _ _ (add_expr_wp r c m)). intros [c' m'] Hg. apply G0. cbn [snd tmax] in *. pose proof (av_nc l). pose proof (av_nc r). destruct (is_const l); [destruct (is_const r); [discriminate Nc|]|]; lia. }
      destruct l; try (apply G1; right; split; reflexivity); destruct r; try (apply G1; left; split; reflexivity); try exact (G2 eq_refl).
      unfold wp. cbn. unfold mk_const. rewrite !av_const. lia.
    Qed.
    Lemma neg_add_wp c ts : S (tmax ts) <= S t0 -> wp (neg_add rmul c ts) (fun r => av r <= tmax ts).
    Proof.
      intros H. unfold neg_add. assert (E : tmax (map (fun p => (fst p, dopp (snd p))) ts) = tmax ts).
      { clear. induction ts as [|[t k] ts IH]; cbn [map tmax fst snd]; [reflexivity|]. rewrite IH. reflexivity. }
      apply add_get_wp; [rewrite E; lia|]. intros t k Et. rewrite Et in E. cbn [tmax] in E. lia.
    Qed.
    Lemma get_av c ts : ts <> [] -> wp (mget c ts) (fun r => av r <= S (pmax ts)).
    Proof. intros N. apply (wp_mono _ _ _ (mget_wp c ts)). intros r (H1 & H2 & _). specialize (H2 N). pose proof (avm_le ts). lia. Qed.
    Lemma get_av' c ts : wp (mget c ts) (fun r => av r <= S (pmax ts)).
    Proof. destruct ts; [|apply get_av; discriminate]. apply (wp_mono _ _ _ (mget_wp c [])). intros r (H1 & _). pose proof (av_dep r). lia. Qed.

    Lemma mat_nil base x : 1 <= a0 -> av x <= a0 -> wp (mul_add_term radd rmul base x []) (fun m => exists b y, m = [(b, y)] /\ pmax m <= Nat.max (dep base) (S (av x))).
    Proof.
      intros Ha Hx. revert x Hx. induction base as [base IH] using (well_founded_induction (Wf_nat.well_founded_ltof _ dep)). intros x Hx.
      assert (G : wp (mul_term radd base x []) (fun m => exists b y, m = [(b, y)] /\ pmax m <= Nat.max (dep base) (S (av x)))).
      { apply wp_ret. exists base, x. split; [reflexivity|]. cbn [pmax]. dpos. lia. }
      destruct base as [| | | | | |o e1 e2| |]; try exact G. destruct o; try exact G. destruct e2 as [v| | | | | | | |]; try exact G. destruct x as [w| | | | | | | |]; try exact G.
      cbn [mul_add_term]. destruct (is_integer v); [|exact G]. apply (wp_bind _ _ (fun _ => True)); [exact Logic.I|]. intros _ _. apply (wp_bind _ _ _ _ (Hcc v w)). intros y Hy. destruct y as [u| | | | | | | |]; try discriminate Hy.
      assert (L : dep e1 < dep (EBin BPow e1 (EConst v))) by (rewrite dep_pow; lia).
      apply (wp_mono _ _ _ (IH e1 L (EConst u) Hx)). intros m (b & y & -> & H). exists b, y. split; [reflexivity|]. rewrite av_const in *. lia.
    Qed.
    (** t * k *)
    Lemma cm_body t k : 1 <= a0 -> dep t <= S (S a0) -> dep t <= S t0 -> wp (mul_body fpow radd rmul t (EConst k)) (fun r => av r <= dep t).
    Proof.
      intros Ha Hd Ht. unfold mul_body. pose proof (dep_pos t). pose proof (av_dep t).
      destruct (is_c t done); [apply wp_ret; rewrite av_const; lia|]. destruct (is_c (EConst k) done); [apply wp_ret; lia|].
      assert (F : is_const t = false -> wp (mul_rest fpow radd rmul t (EConst k)) (fun r => av r <= dep t)).
      { intros Nc. unfold mul_rest. destruct (is_c t dzero); [apply wp_ret; lia|]. destruct (is_c (EConst k) dzero) eqn:Kz; [apply wp_ret; rewrite av_const; lia|].
        assert (Fl : wp (mul_flatten fpow radd rmul t (EConst k)) (fun r => av r <= dep t)).
        { unfold mul_flatten.
          assert (Fc : forall c m, (m <> [] -> avm m <= dep t) -> wp (g <- mul_expr radd rmul (EConst k) (c, m) ;; mget (fst g) (snd g)) (fun r => av r <= dep t)).
          { intros c m Hm. assert (Mg : forall c, wp (mget c m) (fun r => av r <= dep t)).
            { intros c'. apply (wp_mono _ _ _ (mget_wp c' m)). intros r (_ & H2 & H3 & _). destruct m as [|q m].
              - specialize (H3 eq_refl). destruct r; try discriminate H3. rewrite av_const. lia.
              - specialize (H2 ltac:(discriminate)). specialize (Hm ltac:(discriminate)). lia. }
            unfold mul_expr. rewrite Kz. destruct (deq c dzero).
            - apply (wp_bind _ _ (fun f => f = (c, m))); [reflexivity|]. intros f ->. apply Mg.
            - apply (wp_bind _ _ (fun f => snd f = m)); [reflexivity|]. intros [c' m'] Em. cbn [snd] in Em. subst m'. apply Mg. }
          assert (G : (match t with EMul _ _ => False | _ => True end) -> wp (f <- mul_expr radd rmul t (done, []) ;; g <- mul_expr radd rmul (EConst k) f ;; mget (fst g) (snd g)) (fun r => av r <= dep t)).
          { intros Nm. unfold mul_expr at 1. assert (D0 : deq done dzero = false) by (vm_compute; reflexivity). rewrite D0. assert (Nz : is_c t dzero = false) by (destruct t; try reflexivity; discriminate Nc). rewrite Nz.
            assert (T : (match t with EBin BPow _ _ | EConst _ | EMul _ _ => False | _ => True end) ->
              wp (f <- (m' <- mul_add_term radd rmul t (EConst done) [] ;; ret (done, m')) ;; g <- mul_expr radd rmul (EConst k) f ;; mget (fst g) (snd g)) (fun r => av r <= dep t)).
            { intros Hs. assert (Em : mul_add_term radd rmul t (EConst done) [] = ret [(t, EConst done)]) by (destruct t as [| | | | | |[]| |]; try reflexivity; destruct Hs). rewrite Em.
              apply (wp_bind _ _ (fun f => f = (done, [(t, EConst done)]))); [reflexivity|]. intros f ->. apply Fc. intros _. cbn [avm is_c]. rewrite done_done. lia. }
            destruct t as [v| | |c0 ts|k0 ts|o a|o a b|f a b|u vs]; try (apply T; exact Logic.I); try discriminate Nc.
            - destruct Nm.
            - destruct o; try (apply T; exact Logic.I). rewrite dep_pow in *.
              apply (wp_bind _ _ (fun f => exists b0 y, f = (done, [(b0, y)]) /\ pmax [(b0, y)] <= Nat.max (dep a) (S (av b)))).
              + apply (wp_bind _ _ _ _ (mat_nil a b Ha ltac:(lia))). intros m (b0 & y & -> & Hp). apply wp_ret. exists b0, y. split; [reflexivity|exact Hp].
              + intros f (b0 & y & -> & Hp). apply Fc. intros _. pose proof (avm_le [(b0, y)]). lia. }
          destruct t as [v| | |c0 ts|k0 ts|o a|o a b|f a b|u vs]; try discriminate Nc; try (apply Fc; intros _; rewrite dep_mul; apply avm_le).
          all: try (match goal with |- wp (if ?e then _ else _) _ => destruct e eqn:Ee; [apply expr_eqb_eq in Ee; discriminate Ee|exact (G Logic.I)] end). }
        unfold mul_pows. destruct t as [v| | |c0 ts|k0 ts|o a|o a b|f a b|u vs]; try exact Fl; try discriminate Nc. destruct o; try exact Fl.
        destruct (expr_eqb a (EConst k)); [|exact Fl]. rewrite dep_pow in *. apply (wp_bind _ _ _ _ (Hra b (EConst done) ltac:(lia) ltac:(rewrite av_const; exact Ha))). intros s Hs. rewrite av_const in Hs.
        apply (wp_mono _ _ _ (mkpow_wp a s)). intros r [H1 _]. pose proof (av_dep r). pose proof (av_pos b). lia. }
      assert (Ng : wp (mul_neg fpow radd rmul t (EConst k)) (fun r => av r <= dep t)).
      { unfold mul_neg. destruct (is_c t dnone) eqn:E1; destruct (is_c (EConst k) dnone) eqn:E2; destruct t as [v| | |c0 ts|k0 ts|o a|o a b|f a b|u vs]; try discriminate E1; try (apply F; reflexivity).
        - unfold mul_rest. destruct (is_c (EConst v) dzero); [apply wp_ret; lia|]. destruct (is_c (EConst k) dzero); [apply wp_ret; rewrite av_const; lia|]. unfold wp. cbn. unfold mk_const. rewrite av_const. lia.
        - unfold mul_rest. destruct (is_c (EConst v) dzero); [apply wp_ret; lia|]. destruct (is_c (EConst k) dzero); [apply wp_ret; rewrite av_const; lia|]. unfold wp. cbn. unfold mk_const. rewrite av_const. lia.
        - unfold mul_rest. destruct (is_c (EConst v) dzero); [apply wp_ret; lia|]. destruct (is_c (EConst k) dzero); [apply wp_ret; rewrite av_const; lia|]. unfold wp. cbn. unfold mk_const. rewrite av_const. lia.
        - rewrite dep_add in *. apply (wp_mono _ _ _ (neg_add_wp c0 ts Ht)). intros r Hr. lia.
        - rewrite dep_mul. apply get_av'.
        - unfold mul_rest. destruct (is_c (EConst v) dzero); [apply wp_ret; lia|]. destruct (is_c (EConst k) dzero); [apply wp_ret; rewrite av_const; lia|]. unfold wp. cbn. unfold mk_const. rewrite av_const. lia. }
      destruct t as [v| | |c0 ts|k0 ts|o a|o a b|f a b|u vs]; try exact Ng. destruct o; try exact Ng. destruct a as [ka| | | | | | | |]; try exact Ng.
      apply (wp_bind _ _ _ _ (Hcc ka k)). intros n Hn. destruct n as [kn| | | | | | | |]; try discriminate Hn. apply (wp_mono _ _ _ (mkdiv_wp (EConst kn) b)). intros r Hr. rewrite dep_div, !dep_const in *. exact Hr.
    Qed.
    (** k * t *)
    Lemma mc_body k t : 1 <= a0 -> dep t <= S (S a0) -> dep t <= S t0 -> wp (mul_body fpow radd rmul (EConst k) t) (fun _ => True).
    Proof.
      intros Ha Hd Ht. unfold mul_body. destruct (is_c (EConst k) done); [exact Logic.I|]. destruct (is_c t done); [exact Logic.I|].
      assert (R : wp (mul_rest fpow radd rmul (EConst k) t) (fun _ => True)).
      { unfold mul_rest. destruct (is_c (EConst k) dzero); [exact Logic.I|]. destruct (is_c t dzero); [exact Logic.I|].
        assert (P : wp (mul_pows fpow radd rmul (EConst k) t) (fun _ => True)) by (apply pows_wp; [exact Ha|rewrite dep_const; lia|exact Hd]).
        destruct t; try exact P. exact Logic.I. }
      assert (Ng : wp (mul_neg fpow radd rmul (EConst k) t) (fun _ => True)).
      { unfold mul_neg. destruct (is_c (EConst k) dnone); destruct t as [v| | |c0 ts|k0 ts|o a|o a b|f a b|u vs]; try (destruct (is_c _ dnone); exact R); try exact R.
        - rewrite dep_add in *. apply (wp_mono _ _ _ (neg_add_wp c0 ts Ht)). auto.
        - apply mget_any. }
      destruct t as [v| | |c0 ts|k0 ts|o a|o a b|f a b|u vs]; try exact Ng. destruct o; try exact Ng. destruct a as [ka| | | | | | | |]; try exact Ng.
      apply (wp_bind _ _ _ _ (Hcc ka k)). intros n _. apply (wp_mono _ _ _ (mkdiv_wp n b)). auto.
    Qed.
    (** Any product *)
    Variable d0 : nat.
    Hypothesis Hmc : forall k t, dep t <= S d0 -> wp (rmul (EConst k) t) (fun _ => True).
    Hypothesis Hmm : forall l r, dep l <= d0 -> dep r <= d0 -> wp (rmul l r) (fun _ => True).
    Lemma mm_body l r : 1 <= a0 -> dep l <= S (S a0) -> dep r <= S (S a0) -> dep l <= S t0 -> dep r <= S t0 -> dep l <= S d0 -> dep r <= S d0 -> wp (mul_body fpow radd rmul l r) (fun _ => True).
    Proof.
      intros Ha Hl Hr Tl Tr Dl Dr. unfold mul_body. destruct (is_c l done); [exact Logic.I|]. destruct (is_c r done); [exact Logic.I|].
      assert (R : wp (mul_rest fpow radd rmul l r) (fun _ => True)).
      { unfold mul_rest. destruct (is_c l dzero); [exact Logic.I|]. destruct (is_c r dzero); [exact Logic.I|].
        assert (P : wp (mul_pows fpow radd rmul l r) (fun _ => True)) by (apply pows_wp; assumption). destruct l; try exact P. destruct r; try exact P. exact Logic.I. }
      assert (Na : forall c ts, dep (EAdd c ts) <= S t0 -> wp (neg_add rmul c ts) (fun _ => True)).
      { intros c ts H. rewrite dep_add in H. apply (wp_mono _ _ _ (neg_add_wp c ts H)). auto. }
      assert (Ng : wp (mul_neg fpow radd rmul l r) (fun _ => True)).
      { unfold mul_neg. assert (G : wp match is_c r dnone, l with true, EAdd c ts => neg_add rmul c ts | true, EMul c ts => neg_mul fpow c ts | _, _ => mul_rest fpow radd rmul l r end (fun _ => True)).
        { destruct (is_c r dnone); [|exact R]. destruct l; try exact R; [apply Na; exact Tl|apply mget_any]. }
        destruct (is_c l dnone); [|exact G]. destruct r; try exact G; [apply Na; exact Tr|apply mget_any]. }
      assert (Dv : forall k e d, dep e <= S d0 -> wp (n <- rmul (EConst k) e ;; mk_div n d) (fun _ => True)).
      { intros k e d He. apply (wp_bind _ _ _ _ (Hmc k e He)). intros n _. apply (wp_mono _ _ _ (mkdiv_wp n d)). auto. }
      assert (Ln : forall a b, l = EBin BDiv a b -> wp match a with EConst k => n <- rmul (EConst k) r ;; mk_div n b | _ => mul_neg fpow radd rmul l r end (fun _ => True)).
      { intros a b El. destruct a; try exact Ng. apply Dv. exact Dr. }
      assert (Rn : forall c d, r = EBin BDiv c d -> (match l with EBin BDiv _ _ => False | _ => True end) -> wp match c with EConst k => n <- rmul (EConst k) l ;; mk_div n d | _ => mul_neg fpow radd rmul l r end (fun _ => True)).
      { intros c d Er _. destruct c; try exact Ng. apply Dv. exact Dl. }
      destruct l as [| | | | | |ol l1 l2| |]; try (destruct r as [| | | | | |or r1 r2| |]; try exact Ng; destruct or; try exact Ng; exact (Rn r1 r2 eq_refl Logic.I)).
      destruct ol; try (destruct r as [| | | | | |or r1 r2| |]; try exact Ng; destruct or; try exact Ng; exact (Rn r1 r2 eq_refl Logic.I)).
      destruct r as [| | | | | |or r1 r2| |]; try exact (Ln l1 l2 eq_refl). destruct or; try exact (Ln l1 l2 eq_refl).
      assert (G : wp (n <- rmul l1 r1 ;; e <- rmul l2 r2 ;; mk_div n e) (fun _ => True)); [|destruct l1; try exact G; destruct r1; exact G].
      rewrite dep_div in *. apply (wp_bind _ _ _ _ (Hmm l1 r1 ltac:(lia) ltac:(lia))). intros n _. apply (wp_bind _ _ _ _ (Hmm l2 r2 ltac:(lia) ltac:(lia))). intros e _. apply (wp_mono _ _ _ (mkdiv_wp n e)). auto.
    Qed.
  End Rec.

  Lemma cc_body radd rmul a b : wp (mul_body fpow radd rmul (EConst a) (EConst b)) (fun r => is_const r = true).
  Proof.
    unfold mul_body. destruct (is_c (EConst a) done); [reflexivity|]. destruct (is_c (EConst b) done); [reflexivity|]. unfold mul_neg, mul_rest.
    destruct (is_c (EConst a) dnone); destruct (is_c (EConst b) dnone); destruct (is_c (EConst a) dzero); try reflexivity; destruct (is_c (EConst b) dzero); reflexivity.
  Qed.
  (** Fuel beyond the depth is enough. *)
  Lemma enough n :
    (1 <= n -> forall a b, wp (mk_mul fpow n (EConst a) (EConst b)) (fun r => is_const r = true)) /\
    (forall l r, av l + 1 <= n -> av r + 1 <= n -> wp (mk_add fpow n l r) (fun s => av s <= Nat.max (av l) (av r))) /\
    (forall t k, dep t <= n -> wp (mk_mul fpow n t (EConst k)) (fun r => av r <= dep t)) /\
    (forall k t, dep t <= n -> wp (mk_mul fpow n (EConst k) t) (fun _ => True)) /\
    (forall l r, dep l + 1 <= n -> dep r + 1 <= n -> wp (mk_mul fpow n l r) (fun _ => True)).
  Proof.
    induction n as [|n (Icc & Ia & Icm & Imc & Imm)].
    - split; [lia|]. split; [intros; lia|]. split; [intros t k H; pose proof (dep_pos t); lia|]. split; [intros k t H; pose proof (dep_pos t); lia|]. intros; lia.
    - change (mk_mul fpow (S n)) with (mul_body fpow (mk_add fpow n) (mk_mul fpow n)). change (mk_add fpow (S n)) with (add_body fpow (mk_mul fpow n)).
      split; [intros _ a b; apply cc_body|]. split; [|split; [|split]].
      + intros l r Hl Hr. apply (add_body_wp (mk_mul fpow n) n); [exact Icm|lia|lia].
      + intros t k Ht. pose proof (dep_pos t). apply (cm_body (mk_add fpow n) (mk_mul fpow n) (n - 1)) with (t0 := n); [apply Icc; lia|intros; apply Ia; lia|exact Icm|lia|lia|lia].
      + intros k t Ht. pose proof (dep_pos t). apply (mc_body (mk_add fpow n) (mk_mul fpow n) (n - 1)) with (t0 := n); [apply Icc; lia|intros; apply Ia; lia|exact Icm|lia|lia|lia].
      + intros l r Hl Hr. pose proof (dep_pos l).
        apply (mm_body (mk_add fpow n) (mk_mul fpow n) (n - 1)) with (t0 := n) (d0 := n - 1); [apply Icc; lia|intros; apply Ia; lia|exact Icm|intros; apply Imc; lia|intros; apply Imm; lia|lia|lia|lia|lia|lia|lia|lia].
  Qed.
End Term.

(** ** More fuel changes nothing *)
Definition less {A} (c c' : comp A) : Prop := fst c = Fuel \/ c = c'.
Lemma less_refl {A} (c : comp A) : less c c. Proof. right. reflexivity. Qed.
Lemma less_bind {A B} (c c' : comp A) (f f' : A -> comp B) : less c c' -> (forall a, less (f a) (f' a)) -> less (bind c f) (bind c' f').
Proof.
  intros [H|<-] K.
  - left. destruct c as [[a| | |] t]; cbn in H; try discriminate H. reflexivity.
  - destruct c as [[a| | |] t]; try (right; reflexivity). cbn [bind]. destruct (K a) as [E|E].
    + left. destruct (f a). exact E.
    + right. rewrite E. reflexivity.
Qed.
Lemma less_wp {A} (c c' : comp A) (P : A -> Prop) : wp c P -> less c c' -> c' = c.
Proof. intros W [H|<-]; [|reflexivity]. unfold wp in W. rewrite H in W. destruct W. Qed.
Lemma less_trans {A} (a b c : comp A) : less a b -> less b c -> less a c.
Proof. intros [H|<-] K; [left; exact H|exact K]. Qed.

Section Mono.
  Variable fpow : dbl -> dbl -> dbl.
  Variables (radd rmul radd' rmul' : expr -> expr -> comp expr).
  Hypothesis La : forall a b, less (radd a b) (radd' a b).
  Hypothesis Lm : forall a b, less (rmul a b) (rmul' a b).
  Ltac lb := first [apply less_refl | apply La | apply Lm | apply less_bind; [|intros]].
  Lemma add_get_less f : less (add_get rmul f) (add_get rmul' f).
  Proof. destruct f as [c [|[t k] [|q m]]]; cbn [add_get]; try apply less_refl. destruct (deq c dzero); repeat lb. Qed.
  Lemma add_body_less a b : less (add_body fpow rmul a b) (add_body fpow rmul' a b).
  Proof.
    unfold add_body. destruct (is_c a dzero); [apply less_refl|]. destruct (is_c b dzero); [apply less_refl|].
    destruct a; try (apply less_bind; [apply less_refl|intros ?; apply add_get_less]); destruct b;
      try (apply less_bind; [apply less_refl|intros ?; apply add_get_less]); try apply less_refl;
      (apply less_bind; [apply less_refl|intros ?; apply less_bind; [apply less_refl|intros ?; apply add_get_less]]).
  Qed.
  Lemma mul_term_less b x m : less (mul_term radd b x m) (mul_term radd' b x m).
  Proof.
    induction m as [|[q e] m IH]; cbn [mul_term]; [apply less_refl|]. destruct (cmpE b q); [|apply less_refl|apply less_bind; [exact IH|intros; apply less_refl]].
    apply less_bind; [apply less_refl|intros _]. apply less_bind; [apply La|intros; apply less_refl].
  Qed.
  Lemma mul_add_term_less b : forall x m, less (mul_add_term radd rmul b x m) (mul_add_term radd' rmul' b x m).
  Proof.
    induction b as [b IH] using (well_founded_induction (Wf_nat.well_founded_ltof _ dep)). intros x m.
    destruct b as [| | | | | |o e1 e2| |]; try apply mul_term_less. destruct o; try apply mul_term_less. destruct e2 as [v| | | | | | | |]; try apply mul_term_less. destruct x as [w| | | | | | | |]; try apply mul_term_less.
    cbn [mul_add_term]. destruct (is_integer v); [|apply mul_term_less]. apply less_bind; [apply less_refl|intros _]. apply less_bind; [apply Lm|]. intros y. apply IH. unfold ltof. rewrite dep_pow. lia.
  Qed.
  Lemma mul_map_less ts : forall m, less (mul_map radd rmul ts m) (mul_map radd' rmul' ts m).
  Proof. induction ts as [|[b x] ts IH]; intros m; cbn [mul_map]; [apply less_refl|]. apply less_bind; [apply mul_add_term_less|exact IH]. Qed.
  Lemma mul_expr_less e f : less (mul_expr radd rmul e f) (mul_expr radd' rmul' e f).
  Proof.
    destruct f as [c m]. unfold mul_expr. destruct (deq c dzero); [apply less_refl|]. destruct (is_c e dzero); [apply less_refl|].
    destruct e as [| | | | | |o a b| |]; try (apply less_bind; [apply mul_add_term_less|intros; apply less_refl]).
    - apply less_refl.
    - apply less_bind; [apply less_refl|intros]. apply less_bind; [apply mul_map_less|intros; apply less_refl].
    - destruct o; apply less_bind; try apply mul_add_term_less; intros; apply less_refl.
  Qed.
  Lemma flatten_less l r : less (mul_flatten fpow radd rmul l r) (mul_flatten fpow radd' rmul' l r).
  Proof.
    unfold mul_flatten.
    assert (G : less (if expr_eqb l r then mk_pow fpow l (EConst dtwo) else f <- mul_expr radd rmul l (done, []) ;; g <- mul_expr radd rmul r f ;; mul_get fpow (fst g) (snd g))
                     (if expr_eqb l r then mk_pow fpow l (EConst dtwo) else f <- mul_expr radd' rmul' l (done, []) ;; g <- mul_expr radd' rmul' r f ;; mul_get fpow (fst g) (snd g))).
    { destruct (expr_eqb l r); [apply less_refl|]. apply less_bind; [apply mul_expr_less|intros]. apply less_bind; [apply mul_expr_less|intros; apply less_refl]. }
    destruct l; try (apply less_bind; [apply mul_expr_less|intros; apply less_refl]); destruct r; try (apply less_bind; [apply mul_expr_less|intros; apply less_refl]); exact G.
  Qed.
  Lemma pows_less l r : less (mul_pows fpow radd rmul l r) (mul_pows fpow radd' rmul' l r).
  Proof.
    pose proof (flatten_less l r) as F.
    assert (P : forall b e1 e2, less (s <- radd e1 e2 ;; mk_pow fpow b s) (s <- radd' e1 e2 ;; mk_pow fpow b s)) by (intros; apply less_bind; [apply La|intros; apply less_refl]).
    unfold mul_pows. destruct l as [| | | | | |ol l1 l2| |]; destruct r as [| | | | | |or r1 r2| |]; try exact F;
      repeat (match goal with
        | |- less (match ?o with _ => _ end) _ => first [is_var o; destruct o | destruct (expr_eqb _ _)]
        | |- less (mul_flatten _ _ _ _ _) _ => exact F
        | |- less (bind _ _) _ => apply P
        end).
  Qed.
  Lemma rest_less l r : less (mul_rest fpow radd rmul l r) (mul_rest fpow radd' rmul' l r).
  Proof.
    pose proof (pows_less l r) as P. unfold mul_rest. destruct (is_c l dzero); [apply less_refl|]. destruct (is_c r dzero); [apply less_refl|].
    destruct l; try exact P. destruct r; try exact P. apply less_refl.
  Qed.
  Lemma neg_less l r : less (mul_neg fpow radd rmul l r) (mul_neg fpow radd' rmul' l r).
  Proof.
    pose proof (rest_less l r) as R. unfold mul_neg.
    assert (G : less match is_c r dnone, l with true, EAdd c ts => neg_add rmul c ts | true, EMul c ts => neg_mul fpow c ts | _, _ => mul_rest fpow radd rmul l r end
                     match is_c r dnone, l with true, EAdd c ts => neg_add rmul' c ts | true, EMul c ts => neg_mul fpow c ts | _, _ => mul_rest fpow radd' rmul' l r end).
    { destruct (is_c r dnone); [|exact R]. destruct l; try exact R; [apply add_get_less|apply less_refl]. }
    destruct (is_c l dnone); [|exact G]. destruct r; try exact G; [apply add_get_less|apply less_refl].
  Qed.
  Lemma mul_body_less l r : less (mul_body fpow radd rmul l r) (mul_body fpow radd' rmul' l r).
  Proof.
    pose proof (neg_less l r) as Ng. unfold mul_body. destruct (is_c l done); [apply less_refl|]. destruct (is_c r done); [apply less_refl|].
    assert (Dv : forall k e d, less (n <- rmul (EConst k) e ;; mk_div n d) (n <- rmul' (EConst k) e ;; mk_div n d)) by (intros; apply less_bind; [apply Lm|intros; apply less_refl]).
    assert (DD : forall a b c d, less (n <- rmul a c ;; e <- rmul b d ;; mk_div n e) (n <- rmul' a c ;; e <- rmul' b d ;; mk_div n e)).
    { intros a b c d. apply less_bind; [apply Lm|intros]. apply less_bind; [apply Lm|intros; apply less_refl]. }
    destruct l as [| | | | | |ol l1 l2| |]; try (destruct r as [| | | | | |or r1 r2| |]; try exact Ng; destruct or; try exact Ng; destruct r1; first [exact Ng|apply Dv]).
    destruct ol; try (destruct r as [| | | | | |or r1 r2| |]; try exact Ng; destruct or; try exact Ng; destruct r1; first [exact Ng|apply Dv]).
    destruct l1; destruct r as [| | | | | |or r1 r2| |]; try exact Ng; try apply Dv; destruct or; try exact Ng; try apply Dv; try apply DD; destruct r1; apply DD.
  Qed.
End Mono.
Lemma fuel_step fpow n : (forall a b, less (mk_add fpow n a b) (mk_add fpow (S n) a b)) /\ (forall a b, less (mk_mul fpow n a b) (mk_mul fpow (S n) a b)).
Proof.
  induction n as [|n [IHa IHm]]; [split; intros a b; left; reflexivity|].
  split; intros a b; [apply (add_body_less fpow (mk_mul fpow n) (mk_mul fpow (S n)) IHm)|apply (mul_body_less fpow _ _ _ _ IHa IHm)].
Qed.
Lemma fuel_more fpow n m : n <= m -> (forall a b, less (mk_add fpow n a b) (mk_add fpow m a b)) /\ (forall a b, less (mk_mul fpow n a b) (mk_mul fpow m a b)).
Proof.
  intros H. induction H as [|m H [IHa IHm]]; [split; intros; apply less_refl|].
  split; intros a b; eapply less_trans; [apply IHa|apply fuel_step|apply IHm|apply fuel_step].
Qed.

(** ** Every operation ends, with the same result for all sufficient fuel *)
Definition ends {A} (f : nat -> comp A) : Prop := exists n0, forall n, n0 <= n -> f n = f n0 /\ fst (f n) <> Fuel.
Lemma wp_nofuel {A} (c : comp A) P : wp c P -> fst c <> Fuel.
Proof. unfold wp. intros H E. rewrite E in H. destruct H. Qed.
Lemma ends_intro {A} (f : nat -> comp A) n0 P : wp (f n0) P -> (forall n, n0 <= n -> less (f n0) (f n)) -> ends f.
Proof. intros W L. exists n0. intros n Hn. rewrite (less_wp _ _ _ W (L n Hn)). split; [reflexivity|exact (wp_nofuel _ _ W)]. Qed.
Lemma ends_add fpow a b : ends (fun n => mk_add fpow n a b).
Proof.
  destruct (enough fpow (av a + av b + 1)) as (_ & Ha & _). apply (ends_intro _ (av a + av b + 1) _ (Ha a b ltac:(lia) ltac:(lia))).
  intros n Hn. apply (fuel_more fpow _ _ Hn).
Qed.
Lemma ends_mul fpow a b : ends (fun n => mk_mul fpow n a b).
Proof.
  destruct (enough fpow (dep a + dep b + 1)) as (_ & _ & _ & _ & Hm). apply (ends_intro _ (dep a + dep b + 1) _ (Hm a b ltac:(lia) ltac:(lia))).
  intros n Hn. apply (fuel_more fpow _ _ Hn).
Qed.
Lemma ends_const {A} (c : comp A) : fst c <> Fuel -> ends (fun _ => c).
Proof. intros H. exists 0. auto. Qed.
Lemma ends_bind {A B} (f : nat -> comp A) (g : A -> nat -> comp B) : ends f -> (forall a, ends (g a)) -> ends (fun n => bind (f n) (fun a => g a n)).
Proof.
  intros (n0 & H0) G. destruct (fst (f n0)) as [a| | |] eqn:E.
  - destruct (G a) as (n1 & H1). exists (n0 + n1). assert (K : forall n, n0 + n1 <= n -> bind (f n) (fun a => g a n) = bind (f n0) (fun a => g a n1)).
    { intros n Hn. destruct (H0 n ltac:(lia)) as [-> _]. destruct (f n0) as [o t]. cbn [fst] in E. subst o. cbn [bind]. destruct (H1 n ltac:(lia)) as [-> _]. reflexivity. }
    intros n Hn. rewrite !K by lia. split; [reflexivity|]. destruct (f n0) as [o t]. cbn [fst] in E. subst o. cbn [bind]. destruct (H1 n1 ltac:(lia)) as [_ F]. destruct (g a n1). exact F.
  - exists n0. intros n Hn. destruct (H0 n Hn) as [-> F]. destruct (f n0) as [o t]. cbn [fst] in E. subst o. split; [reflexivity|discriminate].
  - exists n0. intros n Hn. destruct (H0 n Hn) as [-> F]. destruct (f n0) as [o t]. cbn [fst] in E. subst o. split; [reflexivity|discriminate].
  - destruct (H0 n0 ltac:(lia)) as [_ F]. contradiction.
Qed.
Lemma get_nofuel fpow c m : fst (mul_get fpow c m) <> Fuel. Proof. exact (wp_nofuel _ _ (mget_any fpow c m)). Qed.
Lemma ends_neg fpow a : ends (fun n => mk_neg fpow n a).
Proof.
  destruct a as [c|lb ub u|v|c ts|c ts|o a|o a b|f a b|u vs]; try apply ends_mul.
  - exact (ends_const (ret (mk_const (dopp c))) ltac:(discriminate)).
  - unfold mk_neg, neg_add, add_get. destruct (map _ ts) as [|[t k] [|q m]].
    + exact (ends_const (ret (mk_const (dopp c))) ltac:(discriminate)).
    + destruct (deq (dopp c) dzero); [apply ends_mul|]. exact (ends_const (ret (EAdd (dopp c) [(t, k)])) ltac:(discriminate)).
    + exact (ends_const (ret (EAdd (dopp c) ((t, k) :: q :: m))) ltac:(discriminate)).
  - exact (ends_const (mul_get fpow (dopp c) ts) (get_nofuel fpow (dopp c) ts)).
Qed.
Lemma ends_sub fpow a b : ends (fun n => mk_sub fpow n a b).
Proof. exact (ends_bind _ (fun b' n => mk_add fpow n a b') (ends_neg fpow b) (fun b' => ends_add fpow a b')). Qed.
Lemma ends_relm fpow op a b : ends (fun n => mk_relm fpow n op a b).
Proof.
  apply (ends_bind _ (fun d _ => match d with EConst c => if is_nan c then ret (FRel op a b) else tell (SCmp c) ;;; ret (if relop_on op c then FTrue else FFalse) | _ => ret (FRel op a b) end) (ends_sub fpow a b)).
  intros d. apply ends_const. destruct d; try discriminate. destruct (is_nan c); discriminate.
Qed.
