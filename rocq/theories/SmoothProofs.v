(** Proofs for SpecSmooth *)
From Coq Require Import ZArith Reals Lra Lia List Bool.
From Flocq Require Import IEEE754.BinarySingleNaN.
From Verif Require Import Dbl DblProofs Syntax Sem SemProofs IEval StdInterp PowProofs Diff SpecDiff RealDiff DiffProofs Refiner SpecSmooth.
Import ListNotations.
Local Open Scope R_scope.

Section S.
  Variables (uf : nat -> list R -> R) (rc : dbl -> dbl -> R) (x : var) (rho : env).
  Notation M := (std uf rc). Notation ev := (evalE M). Notation fn e := (fun z => ev e (at_x rho x z)). Notation X := (rho x).
  Definition der (e : expr) : Prop := exists l, dlim (fn e) X l.
  Lemma pow_der f g : der f -> der g -> pow_smooth (const_exponent g) (ev f rho) (ev g rho) -> exists l, dlim (fun z => powR (ev f (at_x rho x z)) (ev g (at_x rho x z))) X l.
  Proof.
    intros (l & L) (m & L') [P|(C & I0 & N)].
    - eexists. apply dlim_pow_pos; [exact L|exact L'|]. rewrite at_self. exact P.
    - destruct g; try discriminate C. eexists. apply (dlim_pow_int (fn f) X l (B2R c)); [exact L|exact I0|]. rewrite at_self. exact N.
  Qed.
  Theorem differentiable : forall e, is_diffE e = true -> inside M e rho -> der e.
  Proof.
    refine (expr_ind2 (fun e => is_diffE e = true -> inside M e rho -> der e) (fun _ => True) _ _ _ _ _ _ _ _ _ _ _ _ _ _ _ _ _); auto.
    - intros c _ _. exists 0. apply (dlim_const (B2R c)).
    - intros a b u _ _. exists 0. apply (dlim_const (rc a b)).
    - intros v _ _. destruct (var_eqb x v) eqn:E.
      + apply var_eqb_eq in E. subst v. exists 1. apply (derivable_pt_lim_ext id); [|apply derivable_pt_lim_id]. intros z. cbn [evalE]. unfold at_x. rewrite (proj2 (var_eqb_eq x x) eq_refl). reflexivity.
      + exists 0. apply (derivable_pt_lim_ext (fun _ => rho v)); [|apply dlim_const]. intros z. cbn [evalE]. unfold at_x. now rewrite E.
    - intros c ts IH D I0. cbn [is_diffE inside] in D, I0. unfold der. cbn [evalE].
      induction IH as [|[a k] ts Ha Hts IH]; cbn [forallb fold_right fst] in *; [exists 0; apply (dlim_const (B2R c))|]. apply andb_true_iff in D. destruct D as [D1 D2]. destruct I0 as [I1 I2]. destruct (Ha D1 I1) as (l & L). destruct (IH D2 I2) as (m & L').
      eexists. apply (dlim_plus (fun z => B2R k * ev a (at_x rho x z))); [apply (dlim_mult (fun _ => B2R k)); [apply dlim_const|exact L]|exact L'].
    - intros c ts IH D I0. cbn [is_diffE inside] in D, I0. unfold der. cbn [evalE].
      induction IH as [|[a b] ts [Ha Hb] Hts IH]; cbn [forallb fold_right fst snd] in *; [exists 0; apply (dlim_const (B2R c))|]. apply andb_true_iff in D. destruct D as [D1 D2]. apply andb_true_iff in D1. destruct D1 as [D0 D1]. destruct I0 as [(I0 & I1 & P) I2].
      destruct (pow_der a b (Ha D0 I0) (Hb D1 I1) P) as (l & L). destruct (IH D2 I2) as (m & L'). eexists. apply (dlim_mult (fun z => powR (ev a (at_x rho x z)) (ev b (at_x rho x z)))); [exact L|exact L'].
    - intros o a IH D I0. assert (C : is_diffE a = true /\ inside M a rho /\ un_smooth o (ev a rho)) by (destruct o; try discriminate D; cbn [is_diffE inside] in D, I0; exact (conj D I0)). destruct C as (C1 & C2 & C3). destruct (IH C1 C2) as (l & L).
      eexists. apply (dlim_comp (unR o) (fn a)); [exact L|]. rewrite at_self. apply un_dlim. exact C3.
    - intros o f g IHf IHg D I0. destruct o; try discriminate D; cbn [is_diffE inside] in D, I0; apply andb_true_iff in D; destruct D as [D1 D2]; destruct I0 as (I1 & I2 & I3); pose proof (IHf D1 I1) as L1; pose proof (IHg D2 I2) as L2.
      + destruct L1 as [l L1], L2 as [m L2]. eexists. apply (dlim_div (fn f) (fn g)); [exact L1|exact L2|rewrite at_self; exact I3].
      + apply pow_der; assumption.
      + destruct L1 as [l L1], L2 as [m L2]. eexists. apply (dlim_atan2 (fn f) (fn g)); [exact L1|exact L2|rewrite !at_self; exact I3].
    - intros f a b _ _ _ D. discriminate D.
    - intros m vs D. discriminate D.
  Qed.
End S.

(** ** Exactly the terms without kinks *)
Lemma diffE_in e : is_diffE e = true -> forall a, In a (operandsE e) -> is_diffE a = true.
Proof.
  destruct e as [| | |c ts|c ts|o a|o a b|f a b|n vs]; cbn [operandsE]; intros D s H; try destruct H.
  - cbn [is_diffE] in D. apply in_map_iff in H. destruct H as (p & <- & H). rewrite forallb_forall in D. exact (D p H).
  - cbn [is_diffE] in D. rewrite forallb_forall in D. apply in_app_iff in H. destruct H as [H|H]; apply in_map_iff in H; destruct H as (p & <- & H); apply D in H; apply andb_true_iff in H; tauto.
  - subst s. destruct o; try discriminate D; exact D.
  - contradiction.
  - subst s. destruct o; try discriminate D; cbn in D; apply andb_true_iff in D; tauto.
  - destruct H as [<-|[]]. destruct o; try discriminate D; cbn in D; apply andb_true_iff in D; tauto.
Qed.
Lemma diff_kink e : is_diffE e = true -> ~ kink e.
Proof. intros D [(a & ->)|[(a & b & ->)|[(a & b & ->)|[(f & a & b & ->)|(n & vs & ->)]]]]; discriminate D. Qed.
Lemma not_diff_kink : forall e, is_diffE e = false -> exists s, inE s e /\ kink s.
Proof.
  refine (expr_ind2 (fun e => is_diffE e = false -> exists s, inE s e /\ kink s) (fun _ => True) _ _ _ _ _ _ _ _ _ _ _ _ _ _ _ _ _); auto; try (intros; discriminate).
  - intros c ts IH D. assert (exists a, In a (map fst ts) /\ is_diffE a = false /\ exists s, inE s a /\ kink s) as (a & A1 & _ & s & A2 & A3).
    { cbn [is_diffE] in D. induction IH as [|p ts Hp Hts IH]; cbn [forallb map] in *; [discriminate D|]. destruct (is_diffE (fst p)) eqn:E; [destruct (IH D) as (a & A & B); exists a; split; [right; exact A|exact B]|]. exists (fst p). split; [left; reflexivity|]. split; [exact E|apply Hp; reflexivity]. }
    exists s. split; [exact (in_arg s a (EAdd c ts) A1 A2)|exact A3].
  - intros c ts IH D. assert (exists a, In a (map fst ts ++ map snd ts) /\ exists s, inE s a /\ kink s) as (a & A1 & s & A2 & A3).
    { cbn [is_diffE] in D. induction IH as [|p ts [Hp Hq] Hts IH]; cbn [forallb map] in *; [discriminate D|]. destruct (is_diffE (fst p)) eqn:E; [destruct (is_diffE (snd p)) eqn:E'|].
      - destruct (IH D) as (a & A & B). exists a. split; [apply in_app_iff in A; apply in_app_iff; cbn; tauto|exact B].
      - exists (snd p). split; [apply in_app_iff; right; left; reflexivity|apply Hq; reflexivity].
      - exists (fst p). split; [left; reflexivity|apply Hp; reflexivity]. }
    exists s. split; [exact (in_arg s a (EMul c ts) A1 A2)|exact A3].
  - intros o a IH D. destruct (match o with UAbs => true | _ => false end) eqn:E.
    + destruct o; try discriminate E. exists (EUn UAbs a). split; [apply in_self|left; eauto].
    + assert (D' : is_diffE a = false) by (destruct o; try discriminate E; exact D). destruct (IH D') as (s & A & B). exists s. split; [exact (in_arg s a (EUn o a) (or_introl eq_refl) A)|exact B].
  - intros o a b IHa IHb D. destruct (match o with BMin | BMax => true | _ => false end) eqn:E.
    + exists (EBin o a b). split; [apply in_self|]. destruct o; try discriminate E; [right; left; eauto|right; right; left; eauto].
    + assert (D' : is_diffE a && is_diffE b = false) by (destruct o; try discriminate E; exact D). destruct (is_diffE a) eqn:Ea; [|destruct (IHa eq_refl) as (s & A & B); exists s; split; [exact (in_arg s a (EBin o a b) (or_introl eq_refl) A)|exact B]].
      destruct (IHb D') as (s & A & B). exists s. split; [exact (in_arg s b (EBin o a b) (or_intror (or_introl eq_refl)) A)|exact B].
  - intros f a b _ _ _ _. exists (EIte f a b). split; [apply in_self|]. right. right. right. left. eauto.
  - intros n vs _. exists (EUf n vs). split; [apply in_self|]. right. right. right. right. eauto.
Qed.
Theorem diffE_spec e : is_diffE e = true <-> forall s, inE s e -> ~ kink s.
Proof.
  split.
  - intros D s H. induction H as [e|s a e I1 H IH]; [apply diff_kink; exact D|]. apply IH. exact (diffE_in e D a I1).
  - intros H. destruct (is_diffE e) eqn:E; [reflexivity|]. destruct (not_diff_kink e E) as (s & A & B). destruct (H s A B).
Qed.
Lemma diffF_no : forall f, is_diffF f = false -> exists s, inF s f /\ kinkF s.
Proof.
  refine (formula_ind' (fun f => is_diffF f = false -> exists s, inF s f /\ kinkF s) _ _ _ _ _ _ _ _); try (intros; discriminate).
  - intros o a b D. exists (FRel o a b). split; [apply inF_self|]. right. cbn [is_diffF] in D. destruct (is_diffE a) eqn:Ea.
    + destruct (not_diff_kink b D) as (s & A & B). exists o, a, b, s. auto.
    + destruct (not_diff_kink a Ea) as (s & A & B). exists o, a, b, s. auto.
  - intros fs IH D. cbn [is_diffF] in D. assert (exists g, In g fs /\ exists s, inF s g /\ kinkF s) as (g & A & s & B & C); [|exists s; split; [exact (inF_and s g fs A B)|exact C]].
    induction IH as [|g fs Hg Hfs IH]; cbn [forallb] in D; [discriminate D|]. destruct (is_diffF g) eqn:E; [destruct (IH D) as (h & A & B); exists h; split; [right; exact A|exact B]|]. exists g. split; [left; reflexivity|apply Hg; reflexivity].
  - intros fs IH D. cbn [is_diffF] in D. assert (exists g, In g fs /\ exists s, inF s g /\ kinkF s) as (g & A & s & B & C); [|exists s; split; [exact (inF_or s g fs A B)|exact C]].
    induction IH as [|g fs Hg Hfs IH]; cbn [forallb] in D; [discriminate D|]. destruct (is_diffF g) eqn:E; [destruct (IH D) as (h & A & B); exists h; split; [right; exact A|exact B]|]. exists g. split; [left; reflexivity|apply Hg; reflexivity].
  - intros g IH D. destruct (IH D) as (s & A & B). exists s. split; [exact (inF_not s g A)|exact B].
  - intros vs g _ _. exists (FForall vs g). split; [apply inF_self|]. left. eauto.
Qed.
Theorem diffF_spec f : is_diffF f = true <-> forall s, inF s f -> ~ kinkF s.
Proof.
  split.
  - intros D s H. induction H as [f|s g fs I1 H IH|s g fs I1 H IH|s g H IH].
    + intros [(vs & g & ->)|(o & a & b & t & -> & C & K)]; [discriminate D|]. cbn [is_diffF] in D. apply andb_true_iff in D. destruct D as [D1 D2]. destruct C as [C|C]; [exact (proj1 (diffE_spec a) D1 t C K)|exact (proj1 (diffE_spec b) D2 t C K)].
    + apply IH. cbn [is_diffF] in D. rewrite forallb_forall in D. exact (D g I1).
    + apply IH. cbn [is_diffF] in D. rewrite forallb_forall in D. exact (D g I1).
    + apply IH. exact D.
  - intros H. destruct (is_diffF f) eqn:E; [reflexivity|]. destruct (diffF_no f E) as (s & A & B). destruct (H s A B).
Qed.
