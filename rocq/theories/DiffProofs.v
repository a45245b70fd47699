(** * Differentiation computes the derivative *)
From Coq Require Import ZArith Reals Lra Lia List Bool.
From Flocq Require Import IEEE754.BinarySingleNaN.
From Verif Require Import Dbl DblProofs Syntax Sem SemProofs FormulaCons FormulaConsProofs IEval StdInterp MathConv Order ExprAlg SpecAlg PowProofs ExprAlgProofs Diff SpecDiff RealDiff.
Import ListNotations.
Local Open Scope R_scope.

Section Diff.
  Variables (uf : nat -> list R -> R) (rc : dbl -> dbl -> R) (fpow : dbl -> dbl -> dbl) (n : nat) (x : var) (rho : env).
  Notation M := (std uf rc).
  Notation ev := (evalE M).
  Notation df := (defE M stdD).
  Notation ok := (Forall (exact M)).
  Notation gets c v := (yields M stdD c rho v).
  Notation X := (rho x).
  Notation fn e := (fun z => ev e (at_x rho x z)).

  Lemma at_self e : ev e (at_x rho x X) = ev e rho.
  Proof. apply evalE_agree. intros v _. unfold at_x. destruct (var_eqb x v) eqn:E; auto. apply var_eqb_eq in E. now subst. Qed.
  Lemma at_other e z : ~ In x (fvE e) -> ev e (at_x rho x z) = ev e rho.
  Proof. intros H. apply evalE_agree. intros v Hv. unfold at_x. destruct (var_eqb x v) eqn:E; auto. apply var_eqb_eq in E. subst. tauto. Qed.
  Lemma dlim_other e : ~ In x (fvE e) -> dlim (fn e) X 0.
  Proof.
    intros H. apply (derivable_pt_lim_ext (fun _ => ev e rho)); [intros z; symmetry; now apply at_other|apply dlim_const].
  Qed.

  Lemma gb c k v w : gets c v -> (forall a, df a rho -> ev a rho = v -> gets (k a) w) -> gets (bind c k) w.
  Proof. intros H1 H2. apply gets_bind. intros a t E Ht. destruct (H1 a t E Ht) as [D V]. now apply H2. Qed.
  Lemma gmul a b u v : df a rho -> ev a rho = u -> df b rho -> ev b rho = v -> gets (mk_mul fpow n a b) (u * v).
  Proof. intros D1 <- D2 <-. now apply mk_mul_ev. Qed.
  Lemma gadd a b u v : df a rho -> ev a rho = u -> df b rho -> ev b rho = v -> gets (mk_add fpow n a b) (u + v).
  Proof. intros D1 <- D2 <-. now apply mk_add_ev. Qed.
  Lemma gsub a b u v : df a rho -> ev a rho = u -> df b rho -> ev b rho = v -> gets (mk_sub fpow n a b) (u - v).
  Proof. intros D1 <- D2 <-. now apply mk_sub_ev. Qed.
  Lemma gneg a u : df a rho -> ev a rho = u -> gets (mk_neg fpow n a) (- u).
  Proof. intros D1 <-. now apply mk_neg_ev. Qed.
  Lemma gpow a b u v : df a rho -> ev a rho = u -> df b rho -> ev b rho = v -> pow_def u v -> gets (mk_pow fpow a b) (powR u v).
  Proof. intros D1 <- D2 <- P. now apply mk_pow_ev. Qed.
  Lemma gdiv a b u v : df a rho -> ev a rho = u -> df b rho -> ev b rho = v -> v <> 0 -> gets (mk_div a b) (u / v).
  Proof. intros D1 <- D2 <- P. now apply mk_div_ev. Qed.
  Lemma gun o a u : df a rho -> ev a rho = u -> un_def o u -> gets (mk_un o a) (unR o u).
  Proof. intros D1 <- P. now apply mk_un_ev. Qed.
  Lemma ge c v w : v = w -> gets c v -> gets c w. Proof. now intros ->. Qed.
  Lemma one_ev : df (EConst done) rho /\ ev (EConst done) rho = 1. Proof. split; [exact I|exact B2R_done]. Qed.
  Lemma two_ev : df (EConst dtwo) rho /\ ev (EConst dtwo) rho = 2. Proof. split; [exact I|exact B2R_dtwo]. Qed.
  Lemma none_ev : df (EConst dnone) rho /\ ev (EConst dnone) rho = -1. Proof. split; [exact I|exact B2R_dnone]. Qed.

  Lemma pow_smooth_def c a b : pow_smooth c a b -> pow_def a b /\ pow_def a (b - 1).
  Proof.
    unfold pow_def. intros [H|(_ & (z & ->) & H)]; [split; left; exact H|]. rewrite <- minus_IZR.
    destruct (Rtotal_order a 0) as [L|[L|L]]; [split; right; right; split; auto; eexists; reflexivity| |split; left; exact L].
    destruct H as [H|H]; [lra|]. split; right; left; split; auto; [lra|rewrite minus_IZR; lra].
  Qed.

  (** ** The power rule *)
  Lemma isc_const g : isc g = true -> exists c, g = EConst c.
  Proof. destruct g; try discriminate. intros _. eauto. Qed.
  Lemma diff_pow_ev f g cf cg l m : df f rho -> df g rho -> dlim (fn f) X l -> dlim (fn g) X m -> gets cf l -> gets cg m ->
    pow_smooth (isc g) (ev f rho) (ev g rho) ->
    exists d, dlim (fun z => powR (ev f (at_x rho x z)) (ev g (at_x rho x z))) X d /\ gets (diff_pow fpow n f g cf cg) d.
  Proof.
    intros Df Dg Lf Lg Gf Gg S. destruct (pow_smooth_def _ _ _ S) as [P0 P1].
    destruct one_ev as [D1 V1].
    unfold diff_pow. destruct (isc g) eqn:Eg.
    - exists (ev g rho * powR (ev f rho) (ev g rho - 1) * l). split.
      + destruct (isc_const g Eg) as [c ->]. change (ev (EConst c) rho) with (B2R c) in *. destruct S as [S|(_ & I & S)].
        * assert (Lc : dlim (fun _ => B2R c) X 0) by apply dlim_const.
          eapply dlim_eq; [|apply (dlim_pow_pos (fn f) (fun _ => B2R c) X l 0 Lf Lc)]; rewrite at_self; auto. ring.
        * eapply dlim_eq; [|apply (dlim_pow_int (fn f) X l (B2R c) Lf I)]; rewrite at_self; auto.
      + eapply gb; [apply gsub; eauto|]. intros m' Dm Vm. eapply gb; [apply gpow; [exact Df|reflexivity|exact Dm|exact Vm|exact P1]|].
        intros p Dp Vp. eapply gb; [apply gmul; [exact Dg|reflexivity|exact Dp|exact Vp]|]. intros a Da Va.
        eapply gb; [exact Gf|]. intros f' Df' Vf'. now apply gmul.
    - assert (Pf : 0 < ev f rho) by (destruct S as [S|(S & _)]; [auto|discriminate]).
      assert (L := dlim_pow_pos (fn f) (fn g) X l m Lf Lg ltac:(cbn beta; rewrite at_self; exact Pf)). cbn beta in L. rewrite !at_self in L.
      assert (Dl : df (EUn ULog f) rho) by (split; [exact Df|exact Pf]).
      exists (powR (ev f rho) (ev g rho - 1) * (ev g rho * l + ln (ev f rho) * ev f rho * m)). split; [exact L|].
      destruct (isc f) eqn:Ef.
      + destruct (isc_const f Ef) as [c ->].
        assert (l = 0) as -> by (apply (uniqueness_limite (fn (EConst c)) X); [exact Lf|apply (dlim_const (B2R c))]).
        eapply gb; [apply gpow; [exact Df|reflexivity|exact Dg|reflexivity|exact P0]|]. intros p Dp Vp.
        eapply gb; [apply gmul; [exact Dl|reflexivity|exact Dp|exact Vp]|]. intros a Da Va.
        eapply gb; [exact Gg|]. intros g' Dg' Vg'. eapply ge; [|apply gmul; eauto].
        change (unR ULog (ev (EConst c) rho)) with (ln (ev (EConst c) rho)). change (i_un M ULog (evalE M (EConst c) rho)) with (ln (ev (EConst c) rho)).
        rewrite !powR_pos by auto. rewrite <- (Rpower_pred (ev (EConst c) rho) (ev g rho)) by auto.
        change (ev (EUn ULog (EConst c)) rho) with (ln (ev (EConst c) rho)). ring.
      + eapply gb; [apply gsub; eauto|]. intros m' Dm Vm. eapply gb; [apply gpow; [exact Df|reflexivity|exact Dm|exact Vm|exact P1]|]. intros p Dp Vp.
        eapply gb; [exact Gf|]. intros f' Df' Vf'. eapply gb; [apply gmul; [exact Dg|reflexivity|exact Df'|exact Vf']|]. intros a Da Va.
        eapply gb; [apply gmul; [exact Dl|reflexivity|exact Df|reflexivity]|]. intros b Db Vb.
        eapply gb; [exact Gg|]. intros g' Dg' Vg'. eapply gb; [apply gmul; [exact Db|exact Vb|exact Dg'|exact Vg']|]. intros c Dc Vc.
        eapply gb; [apply gadd; [exact Da|exact Va|exact Dc|exact Vc]|]. intros s Ds Vs.
        eapply ge; [|apply gmul; [exact Dp|exact Vp|exact Ds|exact Vs]]. reflexivity.
  Qed.

  (** ** Functions of one argument *)
  Lemma un_smooth_def o a : un_smooth o a -> un_def o a.
  Proof. destruct o; cbn [un_smooth un_def]; intros H; try exact H; try exact I; lra. Qed.
  Lemma pow2 f u : df f rho -> ev f rho = u -> gets (mk_pow fpow f (EConst dtwo)) (u * u).
  Proof.
    intros D V. destruct two_ev as [D2 V2]. eapply ge; [apply powR_x2|]. apply gpow; auto.
    change 2 with (IZR 2). apply pow_def_int. lia.
  Qed.
  Lemma diff_un_ev o f f' l : df f rho -> df f' rho -> ev f' rho = l -> un_smooth o (ev f rho) ->
    gets (diff_un fpow n o f f') (un_der o (ev f rho) * l).
  Proof.
    intros Df D' V' S. destruct one_ev as [D1 V1]. destruct two_ev as [D2 V2]. destruct none_ev as [D3 V3].
    set (a := ev f rho) in *. assert (Va : ev f rho = a) by reflexivity.
    destruct o; cbn [un_smooth] in S; try contradiction; cbn [diff_un un_der].
    - eapply ge; [|apply gdiv; eauto; lra]. field. lra.
    - eapply ge; [|apply gmul; [split; [exact Df|exact I]|reflexivity|exact D'|exact V']]. reflexivity.
    - assert (P : 0 < sqrt a) by (now apply sqrt_lt_R0).
      eapply gb; [apply (gun USqrt); [exact Df|exact Va|cbn; lra]|]. intros s Ds Vs. eapply gb; [apply gmul; [exact D2|exact V2|exact Ds|exact Vs]|].
      intros d Dd Vd. eapply gb; [apply gdiv; [exact D1|exact V1|exact Dd|exact Vd|cbn [unR]; lra]|]. intros q Dq Vq. now apply gmul.
    - eapply ge; [|apply gmul; [split; [exact Df|exact I]|reflexivity|exact D'|exact V']]. reflexivity.
    - eapply gb; [apply gneg; [split; [exact Df|exact I]|reflexivity]|]. intros s Ds Vs. apply gmul; auto.
    - assert (Dc : df (EUn UCos f) rho) by (split; [exact Df|exact I]).
      eapply gb; [apply (pow2 _ (cos a)); [exact Dc|reflexivity]|]. intros p Dp Vp. eapply gb; [apply gdiv; [exact D1|exact V1|exact Dp|exact Vp|]|].
      + intros Z. apply Rmult_integral in Z. tauto.
      + intros q Dq Vq. now apply gmul.
    - assert (P : 0 < 1 - a * a) by nra. assert (P' : 0 < sqrt (1 - a * a)) by (now apply sqrt_lt_R0).
      eapply gb; [apply pow2; [exact Df|exact Va]|]. intros p Dp Vp. eapply gb; [apply gsub; [exact D1|exact V1|exact Dp|exact Vp]|]. intros d Dd Vd.
      eapply gb; [apply (gun USqrt); [exact Dd|exact Vd|cbn; lra]|]. intros s Ds Vs. eapply gb; [apply gdiv; [exact D1|exact V1|exact Ds|exact Vs|cbn [unR]; lra]|].
      intros q Dq Vq. now apply gmul.
    - assert (P : 0 < 1 - a * a) by nra. assert (P' : 0 < sqrt (1 - a * a)) by (now apply sqrt_lt_R0).
      eapply gb; [apply pow2; [exact Df|exact Va]|]. intros p Dp Vp. eapply gb; [apply gsub; [exact D1|exact V1|exact Dp|exact Vp]|]. intros d Dd Vd.
      eapply gb; [apply (gun USqrt); [exact Dd|exact Vd|cbn; lra]|]. intros s Ds Vs. eapply gb; [apply gdiv; [exact D3|exact V3|exact Ds|exact Vs|cbn [unR]; lra]|].
      intros q Dq Vq. now apply gmul.
    - assert (P : 0 < 1 + a * a) by nra.
      eapply gb; [apply pow2; [exact Df|exact Va]|]. intros p Dp Vp. eapply gb; [apply gadd; [exact D1|exact V1|exact Dp|exact Vp]|]. intros d Dd Vd.
      eapply gb; [apply gdiv; [exact D1|exact V1|exact Dd|exact Vd|lra]|]. intros q Dq Vq. now apply gmul.
    - eapply ge; [|apply gmul; [split; [exact Df|exact I]|reflexivity|exact D'|exact V']]. reflexivity.
    - eapply ge; [|apply gmul; [split; [exact Df|exact I]|reflexivity|exact D'|exact V']]. reflexivity.
    - pose proof (cosh_pos a) as P. assert (Dc : df (EUn UCosh f) rho) by (split; [exact Df|exact I]).
      eapply gb; [apply (pow2 _ (cosh a)); [exact Dc|reflexivity]|]. intros p Dp Vp. eapply gb; [apply gdiv; [exact D1|exact V1|exact Dp|exact Vp|nra]|].
      intros q Dq Vq. now apply gmul.
  Qed.

  (** ** Expressions *)
  Definition PD (e : expr) : Prop := smooth M x e rho -> df e rho -> exists l, dlim (fn e) X l /\ gets (diff fpow n x e) l.

  Lemma mem_not vs : mem_var x vs = false <-> ~ In x vs.
  Proof. rewrite <- mem_var_In. destruct (mem_var x vs); intuition congruence. Qed.
  Lemma PD_other e : (if mem_var x (fvE e) then (Throw, []) else ret (EConst dzero)) = diff fpow n x e -> ~ In x (fvE e) ->
    exists l, dlim (fn e) X l /\ gets (diff fpow n x e) l.
  Proof.
    intros <- H. exists 0. split; [now apply dlim_other|]. rewrite (proj2 (mem_not _) H). apply gets_ret; [exact I|reflexivity].
  Qed.
  Lemma sum_PD ts : Forall (fun p => PD (fst p)) ts ->
    fold_right (fun p acc => match p with (a, _) => smooth M x a rho /\ acc end) True ts -> sumd uf rc ts rho ->
    exists l, dlim (fun z => sumv uf rc ts (at_x rho x z)) X l /\
      forall acc u, df acc rho -> ev acc rho = u -> gets (diff_sum fpow n (diff fpow n x) ts acc) (u + l).
  Proof.
    induction 1 as [|[a k] ts Ha HP IH]; intros S D; cbn [diff_sum].
    - exists 0. split; [apply (dlim_const 0)|]. intros acc u Dc Vc. apply gets_ret; auto. rewrite Rplus_0_r. exact Vc.
    - destruct S as [Sa Ss]. destruct D as [Da Ds]. destruct (Ha Sa Da) as (la & L1 & G1). destruct (IH Ss Ds) as (ls & L2 & G2).
      exists (B2R k * la + ls). split.
      + eapply dlim_eq; [|apply (dlim_plus (fun z => B2R k * ev a (at_x rho x z))); [apply (dlim_mult (fun _ => B2R k)); [apply dlim_const|exact L1]|exact L2]]. ring.
      + intros acc u Dc Vc. eapply gb; [exact G1|]. intros a' Da' Va'.
        eapply gb; [apply gmul; [apply mk_const_df|apply mk_const_ev|exact Da'|exact Va']|]. intros p Dp Vp.
        eapply gb; [apply gadd; [exact Dc|exact Vc|exact Dp|exact Vp]|]. intros acc' Dc' Vc'. eapply ge; [|apply G2; [exact Dc'|exact Vc']]. ring.
  Qed.
  Lemma prod_PD P e ts : df e rho -> ev e rho = P -> Forall (fun p => PD (fst p) /\ PD (snd p)) ts ->
    fold_right (fun p acc => match p with (b, g) =>
      (smooth M x b rho /\ smooth M x g rho /\ ev b rho <> 0 /\ pow_smooth (isc g) (ev b rho) (ev g rho)) /\ acc end) True ts ->
    prodd uf rc ts rho ->
    exists s, dlim (fun z => prodv uf rc ts (at_x rho x z)) X (prodv uf rc ts rho * s) /\
      forall acc u, df acc rho -> ev acc rho = u -> gets (diff_prod fpow n (diff fpow n x) e ts acc) (u + P * s).
  Proof.
    intros De Ve. induction 1 as [|[b g] ts [Hb Hg] HP IH]; intros S D; cbn [diff_prod].
    - exists 0. split; [eapply dlim_eq; [|apply (dlim_const 1)]; ring|]. intros acc u Dc Vc. apply gets_ret; auto. rewrite Vc. ring.
    - destruct S as [(Sb & Sg & Nz & Sp) Ss]. destruct D as [(Db & Dg & Dp) Ds]. cbn [fst snd] in *.
      destruct (Hb Sb Db) as (lb & Lb & Gb). destruct (Hg Sg Dg) as (lg & Lg & Gg). destruct (IH Ss Ds) as (s & L2 & G2).
      destruct (diff_pow_ev b g _ _ lb lg Db Dg Lb Lg Gb Gg Sp) as (d & Ld & Gd).
      assert (Np : 0 < ev b rho \/ isint (ev g rho)) by (destruct Sp as [Sp|(_ & Sp & _)]; auto).
      pose proof (powR_neg (ev b rho) (ev g rho) Nz Np) as Inv. set (q := powR (ev b rho) (- ev g rho)) in *.
      exists (d * q + s). split.
      + eapply dlim_eq; [|apply (dlim_mult (fun z => powR (ev b (at_x rho x z)) (ev g (at_x rho x z)))); [exact Ld|exact L2]].
        change (d * prodv uf rc ts (at_x rho x X) + powR (ev b (at_x rho x X)) (ev g (at_x rho x X)) * (prodv uf rc ts rho * s) =
          prodv uf rc ((b, g) :: ts) rho * (d * q + s)).
        rewrite !at_self. change (prodv uf rc ((b, g) :: ts) rho) with (powR (ev b rho) (ev g rho) * prodv uf rc ts rho).
        assert (Es : prodv uf rc ts (at_x rho x X) = prodv uf rc ts rho).
        { pose proof (at_self (EMul done ts)) as E. rewrite !ev_mul, !B2R_done in E. lra. }
        rewrite Es. transitivity ((q * powR (ev b rho) (ev g rho)) * d * prodv uf rc ts rho + powR (ev b rho) (ev g rho) * prodv uf rc ts rho * s); [rewrite Inv; ring|ring].
      + intros acc u Dc Vc. eapply gb; [exact Gd|]. intros d' Dd Vd. eapply gb; [apply gmul; [exact De|exact Ve|exact Dd|exact Vd]|]. intros a Da Va.
        eapply gb; [apply gneg; [exact Dg|reflexivity]|]. intros m Dm Vm.
        eapply gb; [apply gpow; [exact Db|reflexivity|exact Dm|exact Vm|]|].
        { destruct Np as [Np|(z & Ez)]; [now left|]. destruct (Rtotal_order (ev b rho) 0) as [L|[L|L]]; [right; right; split; auto|tauto|now left].
          exists (- z)%Z. rewrite opp_IZR. now rewrite Ez. }
        intros p Dp' Vp. eapply gb; [apply gmul; [exact Da|exact Va|exact Dp'|exact Vp]|]. intros w Dw Vw.
        eapply gb; [apply gadd; [exact Dc|exact Vc|exact Dw|exact Vw]|]. intros acc' Dc' Vc'. eapply ge; [|apply G2; [exact Dc'|exact Vc']].
        fold q. ring.
  Qed.

  Lemma diff_ev : forall e, PD e.
  Proof.
    refine (expr_ind2 PD (fun _ => True) _ _ _ _ _ _ _ _ _ _ _ _ _ _ _ _ _); auto.
    - intros c S D. exists 0. split; [apply (dlim_const (B2R c))|]. cbn [diff]. destruct (is_nan c); [apply gets_throw|]. apply gets_ret; [exact I|reflexivity].
    - intros a b u S D. exists 0. split; [apply (dlim_const (rc a b))|]. apply gets_ret; [exact I|reflexivity].
    - intros v S D. cbn [diff]. destruct (var_eqb x v) eqn:E.
      + apply var_eqb_eq in E. subst v. exists 1. split; [|apply gets_ret; [exact I|exact B2R_done]].
        apply (derivable_pt_lim_ext id); [|apply derivable_pt_lim_id]. intros z. cbn [evalE]. unfold at_x. rewrite (proj2 (var_eqb_eq x x) eq_refl). reflexivity.
      + exists 0. split; [|apply gets_ret; [exact I|reflexivity]]. apply (derivable_pt_lim_ext (fun _ => rho v)); [|apply dlim_const].
        intros z. cbn [evalE]. unfold at_x. now rewrite E.
    - intros c ts HP S D. destruct (sum_PD ts HP S D) as (l & L & G). exists l. split.
      + apply (derivable_pt_lim_ext (fun z => B2R c + sumv uf rc ts (at_x rho x z))); [intros z; symmetry; apply ev_add|].
        eapply dlim_eq; [|apply dlim_plus; [apply dlim_const|exact L]]. ring.
      + cbn [diff]. eapply ge; [|apply (G (EConst dzero) 0 I eq_refl)]. ring.
    - intros c ts HP S D. change (prodd uf rc ts rho) in D.
      assert (G0 := mul_get_ev uf rc fpow done ts rho D).
      assert (L0 : exists s, dlim (fun z => prodv uf rc ts (at_x rho x z)) X (prodv uf rc ts rho * s) /\
        gets (bind (mul_get fpow done ts) (fun m => diff_prod fpow n (diff fpow n x) m ts (EConst dzero))) (prodv uf rc ts rho * s)).
      { destruct (prod_PD (prodv uf rc ts rho) (EMul done ts) ts D) as (s & L & _); auto.
        { rewrite ev_mul, B2R_done. ring. }
        exists s. split; auto. eapply gb; [exact G0|]. intros m Dm Vm. rewrite B2R_done, Rmult_1_l in Vm.
        destruct (prod_PD _ m ts Dm Vm HP S D) as (s' & L' & G').
        assert (Es : prodv uf rc ts rho * s = prodv uf rc ts rho * s') by exact (uniqueness_limite _ _ _ _ L L').
        rewrite Es. eapply ge; [|apply (G' (EConst dzero) 0 I eq_refl)]. ring. }
      destruct L0 as (s & L & G). exists (B2R c * (prodv uf rc ts rho * s)). split.
      + apply (derivable_pt_lim_ext (fun z => B2R c * prodv uf rc ts (at_x rho x z))); [intros z; symmetry; apply ev_mul|].
        eapply dlim_eq; [|apply (dlim_mult (fun _ => B2R c)); [apply dlim_const|exact L]]. ring.
      + cbn [diff]. intros r t E Ht. apply bind_val in E. destruct E as (m0 & ta & tb & E1 & E2 & ->).
        apply bind_val in E2. destruct E2 as (s0 & tc & td & E3 & E4 & ->). rewrite app_assoc in Ht. apply Forall_app in Ht. destruct Ht as [O1 O2].
        assert (Eb : bind (mul_get fpow done ts) (fun m => diff_prod fpow n (diff fpow n x) m ts (EConst dzero)) = (Val s0, ta ++ tc)).
        { rewrite E1. unfold bind. now rewrite E3. }
        destruct (G _ _ Eb O1) as [D1 V1]. exact (gmul (mk_const c) s0 _ _ (mk_const_df uf rc c rho) (mk_const_ev uf rc c rho) D1 V1 _ _ E4 O2).
    - intros o f IH S D.
      assert (C : o = UAbs \/ (o <> UAbs /\ smooth M x f rho /\ un_smooth o (ev f rho) /\ diff fpow n x (EUn o f) = bind (diff fpow n x f) (fun f' => diff_un fpow n o f f'))).
      { destruct o; cbn [smooth] in S; auto; right; (split; [discriminate|]); destruct S as [S1 S2]; auto. }
      destruct C as [->|(_ & Sf & Su & Ed)]; [now apply PD_other|]. destruct D as [Df _]. destruct (IH Sf Df) as (l & L & G).
      exists (un_der o (ev f rho) * l). split.
      + apply (dlim_comp (unR o) (fn f)); [exact L|]. rewrite at_self. now apply un_dlim.
      + rewrite Ed. eapply gb; [exact G|]. intros f' D' V'. now apply diff_un_ev.
    - intros o f g IHf IHg S D. destruct D as (Df & Dg & Do). destruct o; try (now apply PD_other).
      + destruct S as (Sf & Sg & Nz). destruct (IHf Sf Df) as (l & L1 & G1). destruct (IHg Sg Dg) as (m & L2 & G2).
        exists ((l * ev g rho - ev f rho * m) / (ev g rho * ev g rho)). split.
        * eapply dlim_eq; [|apply (dlim_div (fn f) (fn g)); [exact L1|exact L2|rewrite at_self; exact Nz]]. rewrite !at_self. reflexivity.
        * cbn [diff]. eapply gb; [exact G1|]. intros f' Df' Vf'. eapply gb; [apply gmul; [exact Df'|exact Vf'|exact Dg|reflexivity]|]. intros a Da Va.
          eapply gb; [exact G2|]. intros g' Dg' Vg'. eapply gb; [apply gmul; [exact Df|reflexivity|exact Dg'|exact Vg']|]. intros b Db Vb.
          eapply gb; [apply gsub; [exact Da|exact Va|exact Db|exact Vb]|]. intros s Ds Vs.
          eapply gb; [apply pow2; [exact Dg|reflexivity]|]. intros p Dp Vp. apply gdiv; auto.
      + destruct S as (Sf & Sg & Sp). destruct (IHf Sf Df) as (l & L1 & G1). destruct (IHg Sg Dg) as (m & L2 & G2).
        exact (diff_pow_ev f g _ _ l m Df Dg L1 L2 G1 G2 Sp).
      + destruct S as (Sf & Sg & Sp). destruct (IHf Sf Df) as (l & L1 & G1). destruct (IHg Sg Dg) as (m & L2 & G2).
        exists ((ev g rho * l - ev f rho * m) / (ev f rho * ev f rho + ev g rho * ev g rho)). split.
        * eapply dlim_eq; [|apply (dlim_atan2 (fn f) (fn g)); [exact L1|exact L2|rewrite !at_self; exact Sp]]. now rewrite !at_self.
        * cbn [diff]. eapply gb; [exact G1|]. intros f' Df' Vf'. eapply gb; [apply gmul; [exact Dg|reflexivity|exact Df'|exact Vf']|]. intros a Da Va.
          eapply gb; [exact G2|]. intros g' Dg' Vg'. eapply gb; [apply gmul; [exact Df|reflexivity|exact Dg'|exact Vg']|]. intros b Db Vb.
          eapply gb; [apply gsub; [exact Da|exact Va|exact Db|exact Vb]|]. intros s Ds Vs.
          eapply gb; [apply pow2; [exact Df|reflexivity]|]. intros p Dp Vp. eapply gb; [apply pow2; [exact Dg|reflexivity]|]. intros q Dq Vq.
          eapply gb; [apply gadd; [exact Dp|exact Vp|exact Dq|exact Vq]|]. intros d Dd Vd. apply gdiv; auto.
          assert (A : ev f rho <> 0 \/ ev g rho <> 0) by (destruct Sp; [right; lra|now left]). destruct A as [A|A]; apply Rlt_0_sqr in A; unfold Rsqr in A;
            [pose proof (Rle_0_sqr (ev g rho)) as B|pose proof (Rle_0_sqr (ev f rho)) as B]; unfold Rsqr in B; lra.
    - intros f a b _ _ _ S D. now apply PD_other.
    - intros m vs S D. now apply PD_other.
  Qed.

  Lemma diff_top e r t : smooth M x e rho -> df e rho -> diff fpow n x e = (Val r, t) -> ok t ->
    df r rho /\ derivable_pt_lim (fn e) X (ev r rho).
  Proof. intros S D E Ht. destruct (diff_ev e S D) as (l & L & G). destruct (G r t E Ht) as [D1 V1]. split; auto. now rewrite V1. Qed.
End Diff.
