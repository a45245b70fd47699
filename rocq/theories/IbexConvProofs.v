(** The translation to the interval library is faithful, and generated contractors are sound. *)
From Coq Require Import ZArith Reals Lra Lia List Bool.
From Flocq Require Import Core.Core IEEE754.BinarySingleNaN.
From Verif Require Import Dbl DblProofs Syntax Sem SemProofs Interval IntervalProofs MathConv MathConvProofs SpecForm
  FormulaCons FormulaConsProofs Nnf NnfProofs IEval IEvalProofs Contr ContrProofs IbexConv.
Import ListNotations.
Local Open Scope R_scope.

Lemma cbind_ok {A B} (x : cres A) (k : A -> cres B) b : cbind x k = COk b -> exists a, x = COk a /\ k a = COk b.
Proof. destruct x; cbn; try discriminate. eauto. Qed.
Lemma half_R : B2R dhalf = / 2. Proof. unfold dhalf, mkd. cbn. unfold F2R; simpl. lra. Qed.
Lemma mone_R' : B2R (dZ (-1)) = -1. Proof. unfold dZ, mkd. cbn. unfold F2R; simpl. lra. Qed.
Lemma deq_R x y : is_finite x = true -> is_finite y = true -> deq x y = true -> B2R x = B2R y.
Proof. intros Fx Fy H. apply deq_true in H. rewrite (finite_d2e _ Fx), (finite_d2e _ Fy) in H. congruence. Qed.

Section Conv.
  Variables (M : interp) (D : pdom) (esub : expr -> expr -> expr) (eneg : expr -> expr) (vars : list var).
  Hypothesis Hneg : eneg_faithful M D eneg.
  Hypothesis Hsq : sqrt_ok M D.

  Section Val.
    Variables (rho : env) (p : nat -> R).
    Hypothesis Hp : forall i v, nth_error vars i = Some v -> p i = rho v.
    Definition gd (x : inode) (r : R) : Prop := defN M D x p /\ evalN M x p = r.

    Section Step.
      Variable conv : expr -> cres inode.
      Hypothesis IH : forall e x, conv e = COk x -> finE e -> defE M D e rho -> gd x (evalE M e rho).

      Lemma conv_pow_ok b e x : conv_pow conv b e = COk x -> finE b -> finE e -> defE M D b rho -> defE M D e rho ->
        d_bin D BPow (evalE M b rho) (evalE M e rho) -> gd x (i_bin M BPow (evalE M b rho) (evalE M e rho)).
      Proof.
        intros E Fb Fe Db De Dp. unfold conv_pow in E.
        assert (Hc : forall v, e = EConst v -> gd x (i_bin M BPow (evalE M b rho) (evalE M e rho))).
        { intros v ->. cbn [evalE finE] in *. destruct (is_integer v) eqn:Ei; [|destruct (deq v dhalf) eqn:Eh]; apply cbind_ok in E; destruct E as (n & En & E);
            apply IH in En; auto; destruct En as [D1 E1]; injection E as <-; unfold gd; cbn [defN evalN]; rewrite E1.
          - apply is_integer_spec in Ei. destruct Ei as (_ & z & _ & Ez).
            assert (Et : IZR (Btrunc v) = B2R v). { rewrite Btrunc_correct by apply prec64_lt_emax. rewrite round_FIX0, Ez, Ztrunc_IZR. reflexivity. }
            rewrite Et. auto.
          - apply deq_R in Eh; auto. rewrite Eh, half_R in *. destruct (Hsq _ Dp) as [S1 S2]. auto.
          - auto. }
        assert (Hg : (forall v, e <> EConst v) -> gd x (i_bin M BPow (evalE M b rho) (evalE M e rho))).
        { intros Ne. assert (E' : match b with EConst v => cbind (conv e) (fun n => COk (NPowC v n)) | _ => cbind (conv b) (fun x0 => cbind (conv e) (fun y => COk (NBin BPow x0 y))) end = COk x).
          { destruct e; auto. destruct (Ne c eq_refl). }
          assert (Gb : cbind (conv b) (fun x0 => cbind (conv e) (fun y => COk (NBin BPow x0 y))) = COk x -> gd x (i_bin M BPow (evalE M b rho) (evalE M e rho))).
          { intros G. apply cbind_ok in G. destruct G as (y & Ey & G). apply cbind_ok in G. destruct G as (z & Ez & G). injection G as <-.
            apply IH in Ey; auto. apply IH in Ez; auto. destruct Ey as [D1 E1], Ez as [D2 E2]. unfold gd; cbn [defN evalN]. rewrite E1, E2. auto. }
          destruct b; try (apply Gb; exact E'). apply cbind_ok in E'. destruct E' as (y & Ey & G). injection G as <-.
          apply IH in Ey; auto. destruct Ey as [D1 E1]. unfold gd; cbn [defN evalN evalE] in *. rewrite E1. auto. }
        destruct e; try (apply Hg; discriminate). eapply Hc; reflexivity.
      Qed.

      Definition rv (ret : option inode) (d : R) : R := match ret with Some r => evalN M r p | None => d end.
      Definition rd (ret : option inode) : Prop := match ret with Some r => defN M D r p | None => True end.
      Lemma conv_add_ok ts : forall ret out, conv_add eneg conv ret ts = COk out -> rd ret ->
        fold_right (fun q acc => match q with (a, k) => (finE a /\ is_finite k = true) /\ acc end) True ts ->
        fold_right (fun q acc => match q with (a, _) => defE M D a rho /\ acc end) True ts ->
        rd out /\ rv out 0 = rv ret 0 + fold_right (fun q acc => match q with (a, k) => B2R k * evalE M a rho + acc end) 0 ts /\
        (out = None -> ret = None /\ ts = []).
      Proof.
        induction ts as [|[e k] ts IHt]; intros ret out E R F Dt; cbn [conv_add fold_right] in *.
        - injection E as <-. repeat split; auto. cbn [fold_right]. ring.
        - destruct F as [[Fe Fk] F], Dt as [De Dt].
          assert (G : forall n (x : inode), conv_add eneg conv (Some x) ts = COk out -> gd n (evalE M e rho) -> defN M D x p ->
                    evalN M x p = rv ret 0 + B2R k * evalE M e rho ->
                    rd out /\ rv out 0 = rv ret 0 + (B2R k * evalE M e rho + fold_right (fun q acc => match q with (a, k0) => B2R k0 * evalE M a rho + acc end) 0 ts) /\ (out = None -> ret = None /\ (e, k) :: ts = [])).
          { intros n x Ex _ Dx Vx. destruct (IHt _ _ Ex Dx F Dt) as (A & B & C). split; auto. split.
            - rewrite B. cbn [rv]. rewrite Vx. ring.
            - intros Ho. destruct (C Ho); discriminate. }
          destruct (deq k (dZ 1)) eqn:E1; [|destruct (deq k (dZ (-1))) eqn:E2].
          + apply cbind_ok in E. destruct E as (n & En & E). pose proof (IH _ _ En Fe De) as [Dn Vn]. apply deq_R in E1; auto. rewrite one_R in E1.
            eapply G; [exact E|split; eauto| |].
            * destruct ret; cbn [defN]; auto.
            * rewrite E1. destruct ret; cbn [evalN rv]; rewrite Vn; ring.
          + apply deq_R in E2; auto. rewrite mone_R' in E2. destruct ret as [r|].
            * apply cbind_ok in E. destruct E as (n & En & E). pose proof (IH _ _ En Fe De) as [Dn Vn].
              eapply G; [exact E|split; eauto|split; auto|]. cbn [evalN rv]. rewrite Vn, E2. ring.
            * apply cbind_ok in E. destruct E as (n & En & E). destruct (Hneg e) as (N1 & _ & N3). destruct (N3 rho De) as [N4 N5].
              pose proof (IH _ _ En (N1 Fe) N4) as [Dn Vn].
              destruct (IHt _ _ E Dn F Dt) as (A & B & C). split; auto. split.
              -- rewrite B. cbn [rv]. rewrite Vn, N5, E2. ring.
              -- intros Ho. destruct (C Ho); discriminate.
          + apply cbind_ok in E. destruct E as (n & En & E). pose proof (IH _ _ En Fe De) as [Dn Vn].
            eapply G; [exact E|split; eauto| |].
            * destruct ret; cbn [defN]; auto.
            * destruct ret; cbn [evalN rv]; rewrite Vn; ring.
      Qed.
      Lemma conv_mul_ok ts : forall ret out, conv_mul conv ret ts = COk out -> rd ret ->
        fold_right (fun q acc => match q with (a, b) => (finE a /\ finE b) /\ acc end) True ts ->
        fold_right (fun q acc => match q with (a, b) => (defE M D a rho /\ defE M D b rho /\ d_bin D BPow (evalE M a rho) (evalE M b rho)) /\ acc end) True ts ->
        rd out /\ rv out 1 = rv ret 1 * fold_right (fun q acc => match q with (a, b) => i_bin M BPow (evalE M a rho) (evalE M b rho) * acc end) 1 ts.
      Proof.
        induction ts as [|[b e] ts IHt]; intros ret out E R F Dt; cbn [conv_mul fold_right] in *.
        - injection E as <-. split; auto. cbn [fold_right]. ring.
        - destruct F as [[Fb Fe] F], Dt as [(Db & De & Dp) Dt]. apply cbind_ok in E. destruct E as (n & En & E).
          pose proof (conv_pow_ok _ _ _ En Fb Fe Db De Dp) as [Dn Vn].
          destruct (IHt _ _ E) as [A B]; auto.
          { destruct ret; cbn [rd defN]; auto. }
          split; auto. rewrite B. destruct ret; cbn [rv evalN]; rewrite Vn; ring.
      Qed.
    End Step.

    Lemma sum_shift (ts : list (expr * dbl)) c : fold_right (fun q acc => match q with (a, k) => B2R k * evalE M a rho + acc end) c ts =
      fold_right (fun q acc => match q with (a, k) => B2R k * evalE M a rho + acc end) 0 ts + c.
    Proof. induction ts as [|[a k] ts IHt]; cbn [fold_right]; [ring|rewrite IHt; ring]. Qed.
    Lemma prod_shift (ts : list (expr * expr)) c : fold_right (fun q acc => match q with (a, b) => i_bin M BPow (evalE M a rho) (evalE M b rho) * acc end) c ts =
      fold_right (fun q acc => match q with (a, b) => i_bin M BPow (evalE M a rho) (evalE M b rho) * acc end) 1 ts * c.
    Proof. induction ts as [|[a k] ts IHt]; cbn [fold_right]; [ring|rewrite IHt; ring]. Qed.

    Lemma conv_e_ok n : forall e x, conv_e eneg vars n e = COk x -> finE e -> defE M D e rho -> gd x (evalE M e rho).
    Proof.
      induction n as [|n IH]; intros e x; cbn [conv_e]; [discriminate|].
      destruct e as [c|l u b|v|c ts|c ts|o a|o a b|f a b|m vs]; intros E F Dd.
      - injection E as <-. split; cbn; auto.
      - injection E as <-. split; cbn; auto.
      - destruct (index_of v vars) as [i|] eqn:Ei; [|discriminate]. injection E as <-. split; [exact I|]. cbn. apply Hp. apply index_of_nth; auto.
      - cbn [finE defE evalE] in *. destruct F as [Fc F]. unfold deref in E. apply cbind_ok in E. destruct E as (out & Eo & E).
        destruct (conv_add_ok _ IH _ _ _ Eo) as (A & B & C); auto.
        { destruct (deq c dzero); cbn; auto. }
        destruct out as [y|]; [|discriminate]. injection E as <-. split; auto. cbn [rv] in B. rewrite B, (sum_shift ts (B2R c)).
        destruct (deq c dzero) eqn:E0; cbn [rv evalN]; [|ring]. apply deq_R in E0; auto. rewrite E0. cbn [dzero B2R]. ring.
      - cbn [finE defE evalE] in *. destruct F as [Fc F]. unfold deref in E. apply cbind_ok in E. destruct E as (out & Eo & E).
        destruct (conv_mul_ok _ IH _ _ _ Eo) as (A & B); auto.
        { destruct (deq c (dZ 1)); cbn; auto. }
        destruct out as [y|]; [|discriminate]. injection E as <-. split; auto. cbn [rv] in B. rewrite B, (prod_shift ts (B2R c)).
        destruct (deq c (dZ 1)) eqn:E0; cbn [rv evalN]; [|ring]. apply deq_R in E0; auto. rewrite E0, one_R. ring.
      - apply cbind_ok in E. destruct E as (y & Ey & E). injection E as <-. cbn [finE defE evalE] in *. destruct Dd as [Da Du].
        apply IH in Ey; auto. destruct Ey as [D1 E1]. unfold gd; cbn [defN evalN]. rewrite E1. auto.
      - cbn [finE defE evalE] in *. destruct F as [Fa Fb], Dd as (Da & Db & Dp).
        assert (Gb : cbind (conv_e eneg vars n a) (fun x0 => cbind (conv_e eneg vars n b) (fun y => COk (NBin o x0 y))) = COk x -> gd x (i_bin M o (evalE M a rho) (evalE M b rho))).
        { intros G. apply cbind_ok in G. destruct G as (y & Ey & G). apply cbind_ok in G. destruct G as (z & Ez & G). injection G as <-.
          apply IH in Ey; auto. apply IH in Ez; auto. destruct Ey as [D1 E1], Ez as [D2 E2]. unfold gd; cbn [defN evalN]. rewrite E1, E2. auto. }
        destruct o; try (apply Gb; exact E). eapply conv_pow_ok; eauto.
      - discriminate.
      - discriminate.
    Qed.
  End Val.

  (** The symbols of the constraint are the expression's variables. *)
  Definition sv (x : inode) (e : list var) : Prop := forall i, In i (syms x) -> exists v, In v e /\ nth_error vars i = Some v.
  Lemma sv_incl x l m : (forall v, In v l -> In v m) -> sv x l -> sv x m.
  Proof. intros H S i Hi. destruct (S i Hi) as (v & A & B). eauto. Qed.
  Lemma sv_app x y l : sv x l -> sv y l -> forall i, In i (syms x ++ syms y) -> exists v, In v l /\ nth_error vars i = Some v.
  Proof. intros A B i Hi. apply in_app_or in Hi. destruct Hi; auto. Qed.
  Section StepS.
    Variable conv : expr -> cres inode.
    Hypothesis IH : forall e x, conv e = COk x -> sv x (fvE e).
    Lemma conv_pow_sv b e x : conv_pow conv b e = COk x -> sv x (fvE b ++ fvE e).
    Proof.
      unfold conv_pow. intros E.
      assert (L : forall n, conv b = COk n -> sv n (fvE b ++ fvE e)) by (intros n En; eapply sv_incl; [|apply IH; eauto]; intros; apply in_or_app; auto).
      assert (R : forall n, conv e = COk n -> sv n (fvE b ++ fvE e)) by (intros n En; eapply sv_incl; [|apply IH; eauto]; intros; apply in_or_app; auto).
      assert (G1 : forall k, (forall n, syms (k n) = syms n) -> cbind (conv b) (fun n => COk (k n)) = COk x -> sv x (fvE b ++ fvE e)).
      { intros k Hk G. apply cbind_ok in G. destruct G as (n & En & G). injection G as <-. intros i. rewrite Hk. apply L; auto. }
      assert (G2 : forall k, (forall n, syms (k n) = syms n) -> cbind (conv e) (fun n => COk (k n)) = COk x -> sv x (fvE b ++ fvE e)).
      { intros k Hk G. apply cbind_ok in G. destruct G as (n & En & G). injection G as <-. intros i. rewrite Hk. apply R; auto. }
      assert (Gb : cbind (conv b) (fun x0 => cbind (conv e) (fun y => COk (NBin BPow x0 y))) = COk x -> sv x (fvE b ++ fvE e)).
      { intros G. apply cbind_ok in G. destruct G as (y & Ey & G). apply cbind_ok in G. destruct G as (z & Ez & G). injection G as <-.
        intros i; cbn [syms]; apply sv_app; auto. }
      assert (Hg : match b with EConst v => cbind (conv e) (fun n => COk (NPowC v n)) | _ => cbind (conv b) (fun x0 => cbind (conv e) (fun y => COk (NBin BPow x0 y))) end = COk x -> sv x (fvE b ++ fvE e)).
      { intros G. destruct b; try (apply Gb; exact G). apply (G2 (NPowC c)); auto. }
      destruct e; try (apply Hg; exact E).
      destruct (is_integer c); [apply (G1 (fun n => NPowI n (Btrunc c))); auto|].
      destruct (deq c dhalf); [apply (G1 (NUn USqrt)); auto|apply (G1 (fun n => NPowD n c)); auto].
    Qed.
    Definition osv (r : option inode) (l : list var) := match r with Some x => sv x l | None => True end.
    Lemma conv_add_sv l ts : forall ret out, conv_add eneg conv ret ts = COk out -> osv ret l ->
      (forall q v, In q ts -> In v (fvE (fst q)) -> In v l) -> osv out l.
    Proof.
      induction ts as [|[e k] ts IHt]; intros ret out E R H; cbn [conv_add] in E.
      - injection E as <-. auto.
      - assert (He : forall n, conv e = COk n -> sv n l) by (intros n En; eapply sv_incl; [|apply IH; eauto]; intros v Hv; apply (H (e, k) v); [left; auto|exact Hv]).
        assert (Ht : forall q v, In q ts -> In v (fvE (fst q)) -> In v l) by (intros q v Hq; apply H; right; auto).
        destruct (deq k (dZ 1)); [|destruct (deq k (dZ (-1)))].
        + apply cbind_ok in E. destruct E as (n & En & E). eapply IHt; [exact E| |auto]. destruct ret; cbn [osv]; auto. intros j; cbn [syms]; apply sv_app; auto.
        + destruct ret.
          * apply cbind_ok in E. destruct E as (n & En & E). eapply IHt; [exact E| |auto]. intros j; cbn [syms]; apply sv_app; auto.
          * apply cbind_ok in E. destruct E as (n & En & E). eapply IHt; [exact E| |auto]. cbn [osv]. eapply sv_incl; [|apply IH; eauto].
            intros v Hv. apply (H (e, k) v); [left; auto|]. apply Hneg. auto.
        + apply cbind_ok in E. destruct E as (n & En & E). eapply IHt; [exact E| |auto]. destruct ret; cbn [osv].
          * intros j; cbn [syms]. apply sv_app; auto; cbn; auto.
          * intros j; cbn [syms]. cbn [app]. apply He; auto.
    Qed.
    Lemma conv_mul_sv l ts : forall ret out, conv_mul conv ret ts = COk out -> osv ret l ->
      (forall q v, In q ts -> In v (fvE (fst q) ++ fvE (snd q)) -> In v l) -> osv out l.
    Proof.
      induction ts as [|[b e] ts IHt]; intros ret out E R H; cbn [conv_mul] in E.
      - injection E as <-. auto.
      - apply cbind_ok in E. destruct E as (n & En & E).
        assert (Hn : sv n l). { eapply sv_incl; [|apply conv_pow_sv; eauto]. intros v Hv. apply (H (b, e) v); [left; auto|exact Hv]. }
        eapply IHt; [exact E| |intros q v Hq; apply H; right; auto]. destruct ret; cbn [osv]; auto. intros j; cbn [syms]; apply sv_app; auto.
    Qed.
  End StepS.
  Lemma conv_e_sv n : forall e x, conv_e eneg vars n e = COk x -> sv x (fvE e).
  Proof.
    induction n as [|n IH]; intros e x; cbn [conv_e]; [discriminate|].
    destruct e as [c|l u b|v|c ts|c ts|o a|o a b|f a b|m vs]; intros E; cbn [fvE].
    - injection E as <-. intros i [].
    - injection E as <-. intros i [].
    - destruct (index_of v vars) as [i|] eqn:Ei; [|discriminate]. injection E as <-. intros j [<-|[]]. exists v. split; [left; auto|]. apply index_of_nth; auto.
    - unfold deref in E. apply cbind_ok in E. destruct E as (out & Eo & E). destruct out as [y|]; [|discriminate]. injection E as <-.
      apply (conv_add_sv _ IH _ _ _ _ Eo).
      + destruct (deq c dzero); cbn; auto. intros i [].
      + intros [e k] v Hq Hv. apply in_flat_map. exists (e, k). auto.
    - unfold deref in E. apply cbind_ok in E. destruct E as (out & Eo & E). destruct out as [y|]; [|discriminate]. injection E as <-.
      apply (conv_mul_sv _ IH _ _ _ _ Eo).
      + destruct (deq c (dZ 1)); cbn; auto. intros i [].
      + intros [e k] v Hq Hv. apply in_flat_map. exists (e, k). auto.
    - apply cbind_ok in E. destruct E as (y & Ey & E). injection E as <-. intros i; cbn [syms]. apply IH; auto.
    - assert (Gb : cbind (conv_e eneg vars n a) (fun x0 => cbind (conv_e eneg vars n b) (fun y => COk (NBin o x0 y))) = COk x -> sv x (fvE a ++ fvE b)).
      { intros G. apply cbind_ok in G. destruct G as (y & Ey & G). apply cbind_ok in G. destruct G as (z & Ez & G). injection G as <-.
        intros i; cbn [syms]; apply sv_app; (eapply sv_incl; [|apply IH; eauto]); intros; apply in_or_app; auto. }
      destruct o; try (apply Gb; exact E). eapply conv_pow_sv; eauto.
    - discriminate.
    - discriminate.
  Qed.

  (** Literals *)
  Definition side_ok (f : formula) : Prop := forall a b, lit_sides f = Some (a, b) -> esub_faithful M D esub a b.

  Lemma conv_f_ok n f : forall pol c, side_ok f -> conv_f esub eneg vars n f pol = COk (Some c) ->
    (forall rho p, (forall i v, nth_error vars i = Some v -> p i = rho v) -> defF M D f rho ->
       defN M D (fst c) p /\ (relI (snd c) (evalN M (fst c) p) <-> if pol then holds M f rho else ~ holds M f rho)) /\
    (forall i, In i (syms (fst c)) -> exists v, In v (fvF f) /\ nth_error vars i = Some v).
  Proof.
    induction f as [| |v|o a b|fs _|fs _|g IH|vs g _] using formula_ind'; intros pol c HS E; cbn [conv_f] in E; try discriminate.
    - assert (G : forall op, (forall x y, relI op (x - y) <-> if pol then relR o x y else ~ relR o x y) -> ctr_of esub eneg vars n a b op = COk (Some c) ->
        (forall rho p, (forall i v, nth_error vars i = Some v -> p i = rho v) -> defF M D (FRel o a b) rho ->
           defN M D (fst c) p /\ (relI (snd c) (evalN M (fst c) p) <-> if pol then holds M (FRel o a b) rho else ~ holds M (FRel o a b) rho)) /\
        (forall i, In i (syms (fst c)) -> exists v, In v (fvF (FRel o a b)) /\ nth_error vars i = Some v)).
      { intros op Hop G. unfold ctr_of in G. apply cbind_ok in G. destruct G as (x & Ex & G). injection G as <-. cbn [fst snd].
        destruct (HS a b eq_refl) as (S1 & S2 & S3). split.
        - intros rho p Hp [Da Db]. destruct (S3 rho Da Db) as [S4 S5]. destruct (conv_e_ok rho p Hp n _ _ Ex S1 S4) as [Dx Vx].
          split; auto. rewrite Vx, S5. cbn [holds]. apply Hop.
        - intros i Hi. destruct (conv_e_sv n _ _ Ex i Hi) as (v & Hv & Hn). exists v. split; auto. }
      destruct o, pol; try discriminate; (eapply G; [|exact E]); intros x y; cbn; lra.
    - destruct (IH _ _ (fun a b => HS a b) E) as [A B]. split.
      + intros rho p Hp Dd. destruct (A rho p Hp Dd) as [A1 A2]. split; auto. rewrite A2. cbn [holds]. destruct pol; cbn [negb]; tauto.
      + exact B.
  Qed.

  (** No constraint is produced exactly for (possibly negated) [true] and for disequalities. *)
  Fixpoint strip (f : formula) : formula := match f with FNot g => strip g | _ => f end.
  Lemma conv_f_none n f : forall pol, conv_f esub eneg vars n f pol = COk None <-> strip f = FTrue \/ is_neq_pol f pol = true.
  Proof.
    induction f as [| |v|o a b|fs _|fs _|g IH|vs g _] using formula_ind'; intros pol; cbn [conv_f strip is_neq_pol]; try (split; [discriminate|intros [?|?]; discriminate]).
    - tauto.
    - assert (G : forall op, ctr_of esub eneg vars n a b op = COk None <-> False).
      { intros op. split; [|tauto]. intros G. unfold ctr_of in G. apply cbind_ok in G. destruct G as (x & _ & G). discriminate. }
      destruct o, pol; cbn; rewrite ?G; split; auto; try tauto; intros [?|?]; try discriminate; auto.
    - apply IH.
  Qed.
End Conv.

(** ** From the library's contract to the pruning steps *)
Section Steps.
  Variables (M : interp) (D : pdom) (L : ibex) (esub : expr -> expr -> expr) (eneg : expr -> expr) (n : nat).
  Variable fa : formula -> box -> option (list ival).
  Hypothesis HL : ibex_ok M D L.
  Hypothesis Hneg : eneg_faithful M D eneg.
  Hypothesis Hsq : sqrt_ok M D.
  Notation Orc := (ibex_oracles L esub eneg n fa).

  Lemma step_from_ibex fs cs b iv : box_ok b -> ibex_step_ok M D cs (bvals b) iv ->
    (forall c, In c cs -> exists f, In f fs /\ side_ok M D esub f /\ ibex_convert esub eneg (bvars b) n f = COk (Some c)) ->
    step_ok M D fs b iv.
  Proof.
    intros K (A1 & A2 & A3 & A4 & A5) Hc. split; [|split; [|split; [|split]]]; auto.
    - intros rho HB Hs.
      destruct (i_ok_member (b_get b 0) (box_ok_get b 0%nat K)) as [x0 Hx0]; [rewrite <- b_empty_get; apply HB|].
      set (p := fun i => match nth_error (bvars b) i with Some v => rho v | None => x0 end).
      assert (Hp : forall i v, nth_error (bvars b) i = Some v -> p i = rho v) by (intros i v E; unfold p; rewrite E; reflexivity).
      assert (Hin : in_iv p (bvals b)).
      { intros i Hi. destruct (nth_error (bvars b) i) as [v|] eqn:Ev.
        - rewrite (Hp _ _ Ev). apply (in_box_comp _ _ _ _ HB Ev).
        - apply nth_error_None in Ev. destruct K as (_ & Kl & _). assert (i = 0%nat) by lia. subst i.
          unfold p. destruct (nth_error (bvars b) 0) eqn:E0; [apply nth_error_None in Ev; congruence|exact Hx0]. }
      assert (Hout : in_iv p iv).
      { apply A4; auto. intros c Hcc. destruct (Hc c Hcc) as (f & Hf & HS & Ec). destruct (Hs f Hf) as [Df Hf'].
        destruct (conv_f_ok M D esub eneg (bvars b) Hneg Hsq n f true c HS Ec) as [X _]. destruct (X rho p Hp Df) as [X1 X2].
        split; auto. apply X2; auto. }
      assert (Hl : (0 < length iv)%nat) by (rewrite A1; destruct K as (_ & Kl & _); rewrite Kl; lia).
      split.
      + unfold b_empty. cbn [bvals]. eapply imem_nonempty. apply Hout; auto.
      + intros i v Ev. unfold b_get. cbn [bvals bvars] in *. rewrite <- (Hp _ _ Ev). apply Hout. rewrite A1. eapply box_ok_len; eauto.
    - intros Hf. destruct (A5 Hf) as [X|[X Y]]; [left; auto|right]. split; auto. intros i v Ev Hv. apply Y.
      + eapply box_ok_len; eauto.
      + intros c Hcc Hi. destruct (Hc c Hcc) as (f & Hff & HS & Ec).
        destruct (conv_f_ok M D esub eneg (bvars b) Hneg Hsq n f true c HS Ec) as [_ X9]. destruct (X9 i Hi) as (w & Hw & Ew).
        rewrite Ev in Ew. injection Ew as <-. apply (Hv f Hff Hw).
  Qed.

  Lemma bvals_nonnil b : box_ok b -> bvals b <> [].
  Proof. intros (_ & K & _) E. rewrite E in K. cbn [length] in K. lia. Qed.

  Lemma fwd_from_ibex f c vars : side_ok M D esub f -> ibex_convert esub eneg vars n f = COk (Some c) -> fwd_ok M D Orc f vars.
  Proof.
    intros HS Ec b K Ev. destruct HL as [HL1 _]. subst vars. cbn [ibex_oracles o_bwd]. rewrite Ec.
    destruct (HL1 c (bvals b) (bvals_nonnil b K)) as [X Y]; [apply K|]. split; auto.
    eapply step_from_ibex; eauto. intros c' [<-|[]]. exists f. split; [left; auto|]. auto.
  Qed.
  Lemma poly_ctrs_In vars fs : forall cs, poly_ctrs esub eneg vars n fs = Some cs -> forall c, In c cs ->
    exists f, In f fs /\ ibex_convert esub eneg vars n f = COk (Some c).
  Proof.
    induction fs as [|f fs IH]; intros cs E c Hc; cbn [poly_ctrs] in E.
    - injection E as <-. destruct Hc.
    - destruct (is_forall f). { destruct (IH _ E c Hc) as (g & Hg & Eg). exists g; split; auto. right; auto. }
      destruct (ibex_convert esub eneg vars n f) as [[d|]| | |] eqn:Ef; try discriminate.
      + destruct (poly_ctrs esub eneg vars n fs) as [l|]; [|discriminate]. injection E as <-. destruct Hc as [<-|Hc].
        * exists f. split; auto. left; auto.
        * destruct (IH _ eq_refl c Hc) as (g & Hg & Eg). exists g; split; auto. right; auto.
      + destruct (IH _ E c Hc) as (g & Hg & Eg). exists g; split; auto. right; auto.
  Qed.
  Lemma poly_from_ibex fs cs vars : (forall f, In f fs -> side_ok M D esub f) -> poly_ctrs esub eneg vars n fs = Some cs -> poly_ok M D Orc fs vars.
  Proof.
    intros HS Ec b K Ev. destruct HL as [_ HL2]. subst vars. cbn [ibex_oracles o_poly]. rewrite Ec.
    eapply step_from_ibex; [exact K|apply HL2; [apply bvals_nonnil; auto|apply K]|].
    intros c Hc. destruct (poly_ctrs_In _ _ _ Ec c Hc) as (f & Hf & Ef). exists f. auto.
  Qed.

  (** *** Generated contractors *)
  Lemma c_flatten_Forall (P : contractor -> Prop) cs : (forall l, P (CSeq l) <-> Forall P l) -> Forall P cs -> Forall P (c_flatten cs).
  Proof.
    intros HP F. unfold c_flatten. induction F as [|c cs Hc F IH]; cbn [flat_map]; [constructor|]. apply Forall_app. split; auto.
    destruct c; auto. apply HP; auto.
  Qed.
  Lemma mk_seq_ok vars cs : Forall (c_ok M D Orc vars) cs -> c_ok M D Orc vars (mk_seq cs).
  Proof. intros F. unfold mk_seq. cbn [c_ok]. apply cok_list. apply c_flatten_Forall; auto. intros l. cbn [c_ok]. apply cok_list. Qed.
  Lemma mk_seq_sem cs rho : Forall (fun c => c_sem M D c rho) cs -> c_sem M D (mk_seq cs) rho.
  Proof. intros F. unfold mk_seq. cbn [c_sem]. apply csem_seq. apply (c_flatten_Forall (fun c => c_sem M D c rho)); auto. intros l. cbn [c_sem]. apply csem_seq. Qed.

  Definition good_for (vars : list var) (f : formula) (c : contractor) : Prop :=
    c_ok M D Orc vars c /\ forall rho, solves M D f rho -> c_sem M D c rho.

  Lemma mk_fwd_good vars f c : side_ok M D esub f -> (forall v, In v (fvF f) -> In v vars) -> mk_fwd esub eneg vars n f = Some c -> good_for vars f c.
  Proof.
    intros HS Hv. unfold mk_fwd. destruct (ibex_convert esub eneg vars n f) as [[d|]| | |] eqn:E; try discriminate; intros [= <-].
    - split; [|intros rho H; exact H]. cbn. split; auto. eapply fwd_from_ibex; eauto.
    - split; [exact I|intros; exact I].
  Qed.
  Lemma mk_poly_good vars fs c : (forall f, In f fs -> side_ok M D esub f) -> (forall f v, In f fs -> In v (fvF f) -> In v vars) ->
    mk_poly esub eneg vars n fs = Some c -> c_ok M D Orc vars c /\ forall rho, (forall f, In f fs -> solves M D f rho) -> c_sem M D c rho.
  Proof.
    intros HS Hv. unfold mk_poly. destruct (poly_ctrs esub eneg vars n fs) as [[|d l]|] eqn:E; try discriminate; intros [= <-].
    - split; [exact I|intros; exact I].
    - split; [|intros rho H; exact H]. cbn. split; auto. eapply poly_from_ibex; eauto.
  Qed.

  Definition sides_ok : formula -> Prop := rels_ok (fun _ a b => esub_faithful M D esub a b).

  Lemma solves_and_in fs rho : solves M D (FAnd fs) rho -> forall f, In f fs -> solves M D f rho.
  Proof.
    intros [Hd Hh] f Hf. cbn [defF holds] in *. induction fs as [|g fs IH]; [destruct Hf|]. cbn [fold_right] in *. destruct Hf as [->|Hf]; [split; tauto|apply IH; tauto].
  Qed.
  Lemma solves_or_in fs rho : solves M D (FOr fs) rho -> exists f, In f fs /\ solves M D f rho.
  Proof.
    intros [Hd Hh]. cbn [defF holds] in *. induction fs as [|g fs IH]; [contradiction|]. cbn [fold_right] in *. destruct Hh as [H|H].
    - exists g. split; [left; auto|split; tauto].
    - destruct IH as (f & Hf & Hs); try tauto. exists f. split; auto. right; auto.
  Qed.

  Lemma gen_good use_p vars f : sides_ok f -> (forall v, In v (fvF f) -> In v vars) ->
    forall c, gen esub eneg vars use_p n f = Some c -> good_for vars f c.
  Proof.
    induction f as [| |v|o a b|fs IH|fs IH|g IH|vs g IH] using formula_ind'; intros HS Hv c; cbn [gen]; try discriminate.
    - intros [= <-]. split; [exact I|intros; exact I].
    - assert (S1 : side_ok M D esub (FRel o a b)) by (inversion HS; subst; intros x y [= <- <-]; auto).
      destruct use_p; [|apply mk_fwd_good; auto]. intros E.
      destruct (mk_poly_good vars [FRel o a b] c) as [A B]; auto; try (intros f [<-|[]]; auto).
      { intros f v [<-|[]]. apply Hv. }
      split; auto. intros rho H. apply B. intros f [<-|[]]. auto.
    - pose proof (ro_and_inv _ _ HS) as H0. rewrite Forall_forall in IH.
      assert (Hs : forall g, In g fs -> sides_ok g /\ (forall v, In v (fvF g) -> In v vars)).
      { intros g Hg. split; [apply H0; auto|]. intros v Hvv. apply Hv. cbn [fvF]. apply in_flat_map. eauto. }
      set (cs := fold_right _ _ fs). destruct cs as [l|] eqn:Ecs; cbn [bind]; [|discriminate].
      assert (G : Forall (c_ok M D Orc vars) l /\ forall rho, (forall f, In f fs -> solves M D f rho) -> Forall (fun c => c_sem M D c rho) l).
      { subst cs. clear HS Hv H0. revert l Ecs. induction fs as [|g fs IHf]; intros l Ecs; cbn [fold_right] in Ecs.
        - injection Ecs as <-. split; constructor.
        - assert (IH' : forall x, In x fs -> sides_ok x -> (forall v, In v (fvF x) -> In v vars) -> forall c, gen esub eneg vars use_p n x = Some c -> good_for vars x c) by (intros x Hx; apply IH; right; auto).
          assert (Hs' : forall x, In x fs -> sides_ok x /\ (forall v, In v (fvF x) -> In v vars)) by (intros x Hx; apply Hs; right; auto).
          destruct (use_p && is_rel g) eqn:Eg.
          { destruct (IHf IH' Hs' _ Ecs) as [A B]. split; auto. intros rho H. apply B. intros f Hf. apply H; right; auto. }
          destruct (gen esub eneg vars use_p n g) as [cg|] eqn:Eg'; cbn [bind] in Ecs; [|discriminate].
          destruct (fold_right _ _ fs) as [l'|] eqn:El; cbn [bind] in Ecs; [|discriminate]. injection Ecs as <-.
          destruct (Hs g (or_introl eq_refl)) as [Sg Vg]. destruct (IH g (or_introl eq_refl) Sg Vg _ Eg') as [G1 G2].
          destruct (IHf IH' Hs' _ eq_refl) as [A B]. split; [constructor; auto|]. intros rho H. constructor; [apply G2, H; left; auto|]. apply B. intros f Hf. apply H; right; auto. }
      destruct G as [G1 G2]. destruct use_p.
      + destruct (mk_poly esub eneg vars n (filter is_rel fs)) as [pc|] eqn:Ep; cbn [bind]; [|discriminate]. intros [= <-].
        destruct (mk_poly_good vars (filter is_rel fs) pc) as [A B]; auto.
        { intros f Hf. apply filter_In in Hf. destruct Hf as [Hf Hr]. destruct f; try discriminate. destruct (Hs _ Hf) as [X _].
          inversion X; subst. intros x y [= <- <-]. auto. }
        { intros f v Hf. apply filter_In in Hf. apply Hs. apply Hf. }
        split.
        * apply mk_seq_ok. apply Forall_app. split; auto.
        * intros rho H. pose proof (solves_and_in _ _ H) as Hall. apply mk_seq_sem. apply Forall_app. split; auto. constructor; auto.
          apply B. intros f Hf. apply filter_In in Hf. apply Hall. apply Hf.
      + intros [= <-]. split; [apply mk_seq_ok; auto|]. intros rho H. apply mk_seq_sem. apply G2. apply solves_and_in; auto.
    - pose proof (ro_or_inv _ _ HS) as H0. rewrite Forall_forall in IH.
      assert (Hs : forall g, In g fs -> sides_ok g /\ (forall v, In v (fvF g) -> In v vars)).
      { intros g Hg. split; [apply H0; auto|]. intros v Hvv. apply Hv. cbn [fvF]. apply in_flat_map. eauto. }
      set (cs := fold_right _ _ fs). destruct cs as [l|] eqn:Ecs; cbn [bind]; [|discriminate]. intros [= <-].
      assert (G : Forall (c_ok M D Orc vars) l /\ forall rho, (exists f, In f fs /\ solves M D f rho) -> Exists (fun c => c_sem M D c rho) l).
      { subst cs. clear HS Hv H0. revert l Ecs. induction fs as [|g fs IHf]; intros l Ecs; cbn [fold_right] in Ecs.
        - injection Ecs as <-. split; [constructor|]. intros rho (f & [] & _).
        - assert (IH' : forall x, In x fs -> sides_ok x -> (forall v, In v (fvF x) -> In v vars) -> forall c, gen esub eneg vars use_p n x = Some c -> good_for vars x c) by (intros x Hx; apply IH; right; auto).
          assert (Hs' : forall x, In x fs -> sides_ok x /\ (forall v, In v (fvF x) -> In v vars)) by (intros x Hx; apply Hs; right; auto).
          destruct (gen esub eneg vars use_p n g) as [cg|] eqn:Eg'; cbn [bind] in Ecs; [|discriminate].
          destruct (fold_right _ _ fs) as [l'|] eqn:El; cbn [bind] in Ecs; [|discriminate]. injection Ecs as <-.
          destruct (Hs g (or_introl eq_refl)) as [Sg Vg]. destruct (IH g (or_introl eq_refl) Sg Vg _ Eg') as [G1 G2].
          destruct (IHf IH' Hs' _ eq_refl) as [A B]. split; [constructor; auto|]. intros rho (f & [<-|Hf] & Hsol); [left; auto|right; apply B; eauto]. }
      destruct G as [G1 G2]. split.
      + cbn. apply cok_list. auto.
      + intros rho H. cbn. apply csem_join. apply G2. apply solves_or_in; auto.
  Qed.
End Steps.

(** Negation normal form keeps definedness, free variables and faithful sides. *)
Section NnfDef.
  Variables (M : interp) (D : pdom) (fold : expr -> expr -> option dbl).
  Lemma defF_and fs rho : defF M D (FAnd fs) rho <-> forall g, In g fs -> defF M D g rho.
  Proof. cbn [defF]. induction fs as [|g fs IH]; cbn [fold_right In]; [tauto|]. rewrite IH. split; [intros [A B] x [<-|H]; auto|intros H; split; auto]. Qed.
  Lemma defF_or fs rho : defF M D (FOr fs) rho <-> forall g, In g fs -> defF M D g rho.
  Proof. cbn [defF]. induction fs as [|g fs IH]; cbn [fold_right In]; [tauto|]. rewrite IH. split; [intros [A B] x [<-|H]; auto|intros H; split; auto]. Qed.
  Lemma nnf_def push f : unfolded fold f -> forall pol rho, defF M D f rho -> defF M D (nnf fold push f pol) rho.
  Proof.
    induction f as [| |v|o a b|fs IH|fs IH|g IH|vs g IH] using formula_ind'; intros U pol rho Hd; cbn [nnf].
    - destruct pol; exact I.
    - destruct pol; exact I.
    - destruct pol; exact I.
    - destruct pol; [exact Hd|]. inversion U; subst. destruct push; [|exact Hd]. destruct o; rewrite mk_rel_none by auto; exact Hd.
    - assert (HU : forall g, In g fs -> unfolded fold g) by exact (ro_and_inv _ _ U). rewrite Forall_forall in IH. rewrite defF_and in Hd.
      assert (K : forall g, In g (fset (map (fun g => nnf fold push g pol) fs)) -> defF M D g rho).
      { intros g Hg. apply fset_In, in_map_iff in Hg. destruct Hg as (x & <- & Hx). apply IH; auto. }
      destruct pol; [apply (mk_conj_pres (fun g => defF M D g rho))|apply (mk_disj_pres (fun g => defF M D g rho))]; try exact I; auto; intros gs; rewrite ?defF_and, ?defF_or; auto.
    - assert (HU : forall g, In g fs -> unfolded fold g) by exact (ro_or_inv _ _ U). rewrite Forall_forall in IH. rewrite defF_or in Hd.
      assert (K : forall g, In g (fset (map (fun g => nnf fold push g pol) fs)) -> defF M D g rho).
      { intros g Hg. apply fset_In, in_map_iff in Hg. destruct Hg as (x & <- & Hx). apply IH; auto. }
      destruct pol; [apply (mk_disj_pres (fun g => defF M D g rho))|apply (mk_conj_pres (fun g => defF M D g rho))]; try exact I; auto; intros gs; rewrite ?defF_and, ?defF_or; auto.
    - assert (HU : unfolded fold g) by (inversion U; auto). apply IH; auto.
    - destruct pol; exact Hd.
  Qed.
  (** [P] of the comparisons and the set of free variables carry over. *)
  Lemma nnf_rels (P : expr -> expr -> Prop) push f : unfolded fold f -> rels_ok (fun _ a b => P a b) f ->
    forall pol, rels_ok (fun _ a b => P a b) (nnf fold push f pol).
  Proof.
    induction f as [| |v|o a b|fs IH|fs IH|g IH|vs g IH] using formula_ind'; intros U HP pol; cbn [nnf].
    - destruct pol; constructor.
    - destruct pol; constructor.
    - destruct pol; [constructor|]. cbn [mk_not]. constructor; constructor.
    - destruct pol; [exact HP|]. inversion U; subst. inversion HP; subst. destruct push.
      + destruct o; rewrite mk_rel_none by auto; constructor; auto.
      + cbn [mk_not]. constructor; auto.
    - assert (HU : forall g, In g fs -> unfolded fold g) by exact (ro_and_inv _ _ U). inversion HP; subst. rewrite Forall_forall in IH.
      assert (K : forall g, In g (fset (map (fun g => nnf fold push g pol) fs)) -> rels_ok (fun _ a b => P a b) g).
      { intros g Hg. apply fset_In, in_map_iff in Hg. destruct Hg as (x & <- & Hx). apply IH; auto. }
      destruct pol; [apply mk_conj_pres|apply mk_disj_pres]; first [apply ro_true|apply ro_false|exact (ro_and _)|exact (ro_or _)|exact (ro_and_inv _)|exact (ro_or_inv _)|exact K].
    - assert (HU : forall g, In g fs -> unfolded fold g) by exact (ro_or_inv _ _ U). inversion HP; subst. rewrite Forall_forall in IH.
      assert (K : forall g, In g (fset (map (fun g => nnf fold push g pol) fs)) -> rels_ok (fun _ a b => P a b) g).
      { intros g Hg. apply fset_In, in_map_iff in Hg. destruct Hg as (x & <- & Hx). apply IH; auto. }
      destruct pol; [apply mk_disj_pres|apply mk_conj_pres]; first [apply ro_true|apply ro_false|exact (ro_and _)|exact (ro_or _)|exact (ro_and_inv _)|exact (ro_or_inv _)|exact K].
    - assert (HU : unfolded fold g) by (inversion U; auto). inversion HP; subst. apply IH; auto.
    - destruct pol; [exact HP|]. cbn [mk_not]. constructor; auto.
  Qed.
  Lemma nnf_fv (X : var -> Prop) push f : unfolded fold f -> (forall v, In v (fvF f) -> X v) -> forall pol v, In v (fvF (nnf fold push f pol)) -> X v.
  Proof.
    induction f as [| |v|o a b|fs IH|fs IH|g IH|vs g IH] using formula_ind'; intros U HX pol; cbn [nnf].
    - destruct pol; intros ? [].
    - destruct pol; intros ? [].
    - destruct pol; exact HX.
    - destruct pol; [exact HX|]. inversion U; subst. destruct push.
      + destruct o; rewrite mk_rel_none by auto; exact HX.
      + exact HX.
    - assert (HU : forall g, In g fs -> unfolded fold g) by exact (ro_and_inv _ _ U). rewrite Forall_forall in IH.
      assert (K : forall g, In g (fset (map (fun g => nnf fold push g pol) fs)) -> forall v, In v (fvF g) -> X v).
      { intros g Hg. apply fset_In, in_map_iff in Hg. destruct Hg as (x & <- & Hx). apply IH; auto. intros v Hv. apply HX. cbn [fvF]. apply in_flat_map. eauto. }
      destruct pol; [apply (mk_conj_pres (fun g => forall v, In v (fvF g) -> X v))|apply (mk_disj_pres (fun g => forall v, In v (fvF g) -> X v))];
        try (intros ? []); auto; intros gs H; [intros v Hv; cbn [fvF] in Hv; apply in_flat_map in Hv; destruct Hv as (x & Hx & Hv); eapply H; eauto
          |intros g Hg v Hv; apply H; cbn [fvF]; apply in_flat_map; eauto |intros v Hv; cbn [fvF] in Hv; apply in_flat_map in Hv; destruct Hv as (x & Hx & Hv); eapply H; eauto
          |intros g Hg v Hv; apply H; cbn [fvF]; apply in_flat_map; eauto].
    - assert (HU : forall g, In g fs -> unfolded fold g) by exact (ro_or_inv _ _ U). rewrite Forall_forall in IH.
      assert (K : forall g, In g (fset (map (fun g => nnf fold push g pol) fs)) -> forall v, In v (fvF g) -> X v).
      { intros g Hg. apply fset_In, in_map_iff in Hg. destruct Hg as (x & <- & Hx). apply IH; auto. intros v Hv. apply HX. cbn [fvF]. apply in_flat_map. eauto. }
      destruct pol; [apply (mk_disj_pres (fun g => forall v, In v (fvF g) -> X v))|apply (mk_conj_pres (fun g => forall v, In v (fvF g) -> X v))];
        try (intros ? []); auto; intros gs H; [intros v Hv; cbn [fvF] in Hv; apply in_flat_map in Hv; destruct Hv as (x & Hx & Hv); eapply H; eauto
          |intros g Hg v Hv; apply H; cbn [fvF]; apply in_flat_map; eauto |intros v Hv; cbn [fvF] in Hv; apply in_flat_map in Hv; destruct Hv as (x & Hx & Hv); eapply H; eauto
          |intros g Hg v Hv; apply H; cbn [fvF]; apply in_flat_map; eauto].
    - assert (HU : unfolded fold g) by (inversion U; auto). apply IH; auto.
    - destruct pol; exact HX.
  Qed.
End NnfDef.

Lemma generate_good M D L esub eneg n fa (HL : ibex_ok M D L) (Hneg : eneg_faithful M D eneg) (Hsq : sqrt_ok M D) use_p fold vars f c :
  unfolded fold f -> rels_ok (fun _ a b => esub_faithful M D esub a b) f -> (forall v, In v (fvF f) -> In v vars) ->
  generate esub eneg vars use_p fold n f = Some c ->
  c_ok M D (ibex_oracles L esub eneg n fa) vars c /\ forall rho, solves M D f rho -> c_sem M D c rho.
Proof.
  intros U HS Hv E. unfold generate, nnf_convert in E.
  destruct (gen_good M D L esub eneg n fa HL Hneg Hsq use_p vars (nnf fold true f true)) with (c := c) as [A B]; auto.
  - apply (nnf_rels fold (fun a b => esub_faithful M D esub a b)); auto.
  - apply (nnf_fv fold (fun v => In v vars)); auto.
  - split; auto. intros rho [Hd Hh]. apply B. split; [apply nnf_def; auto|apply (nnf_holds M fold true f U true rho); auto].
Qed.
