(** * EqualTo: equality up to the sign of zero and the types of variables *)
From Coq Require Import ZArith NArith Reals Lra Lia List Bool Arith ClassicalDescription.
From Flocq Require Import IEEE754.BinarySingleNaN.
From Verif Require Import Dbl DblProofs Syntax Sem SemProofs Order Less SpecOrder OrderProofs OrderTop.
Import ListNotations.

Definition nz (c : dbl) : dbl := if deq c dzero then dzero else c.
Lemma nz_eq a b : not_nan a -> not_nan b -> (deq a b = true <-> nz a = nz b).
Proof.
  intros Na Nb. unfold nz. assert (Nz : is_nan dzero = false) by reflexivity. split.
  - intros H. pose proof (deq_true _ _ H) as E. destruct (deq a dzero) eqn:Ea.
    + assert (Eb : deq b dzero = true) by (apply deq_spec; auto; rewrite <- E; now apply deq_true). rewrite Eb. reflexivity.
    + destruct (deq b dzero) eqn:Eb; [exfalso; assert (X : deq a dzero = true) by (apply deq_spec; auto; rewrite E; now apply deq_true); congruence|].
      destruct (is_finite a) eqn:Fa, (is_finite b) eqn:Fb.
      * rewrite !finite_d2e in E by assumption. assert (Er : B2R a = B2R b) by congruence. apply B2R_inj; auto; destruct a, b; try discriminate; try reflexivity; try (cbn in Ea, Eb; destruct s; discriminate).
      * destruct a as [|[]| |], b as [|[]| |]; cbn in *; try discriminate; congruence.
      * destruct a as [|[]| |], b as [|[]| |]; cbn in *; try discriminate; congruence.
      * destruct a as [|[]| |], b as [|[]| |]; cbn in *; try discriminate; reflexivity.
  - intros H. apply deq_spec; auto. destruct (deq a dzero) eqn:Ea, (deq b dzero) eqn:Eb.
    + transitivity (d2e dzero); [now apply deq_true|symmetry; now apply deq_true].
    + subst b. now apply deq_true.
    + subst a. symmetry. now apply deq_true.
    + now subst b.
Qed.
Lemma nz_nan c : is_nan (nz c) = is_nan c.
Proof. unfold nz. destruct (deq c dzero) eqn:E; [|reflexivity]. apply deq_not_nan in E. destruct E as [-> _]. reflexivity. Qed.
Lemma nz_R c : B2R (nz c) = B2R c.
Proof. unfold nz. destruct (deq c dzero) eqn:E; [|reflexivity]. pose proof (deq_true _ _ E) as E'. destruct (is_finite c) eqn:F; [rewrite !finite_d2e in E' by (exact F || reflexivity); congruence|]. destruct c as [|[]| |]; cbn in E; discriminate. Qed.
Lemma nz_deq c : not_nan c -> deq c (nz c) = true.
Proof. intros N. apply nz_eq; [exact N|unfold not_nan; rewrite nz_nan; exact N|]. unfold nz. destruct (deq c dzero) eqn:E; [reflexivity|]. rewrite E. reflexivity. Qed.

Section Nm.
  Variable ty : nat -> vtype.
  Definition nv (v : var) : var := mkVar (vid v) (ty (vid v)).
  Fixpoint nmE (e : expr) : expr :=
    match e with
    | EConst c => EConst (nz c)
    | EReal a b u => EReal (nz a) (nz b) u
    | EVar v => EVar (nv v)
    | EAdd c ts => EAdd (nz c) (map (fun p => match p with (a, k) => (nmE a, nz k) end) ts)
    | EMul c ts => EMul (nz c) (map (fun p => match p with (a, k) => (nmE a, nmE k) end) ts)
    | EUn o a => EUn o (nmE a)
    | EBin o a b => EBin o (nmE a) (nmE b)
    | EIte f a b => EIte (nmF f) (nmE a) (nmE b)
    | EUf n vs => EUf n (map nv vs)
    end
  with nmF (f : formula) : formula :=
    match f with
    | FTrue => FTrue
    | FFalse => FFalse
    | FVar v => FVar (nv v)
    | FRel o a b => FRel o (nmE a) (nmE b)
    | FAnd fs => FAnd (map nmF fs)
    | FOr fs => FOr (map nmF fs)
    | FNot g => FNot (nmF g)
    | FForall vs g => FForall (map nv vs) (nmF g)
    end.
  Lemma kind_nmE x : kindE (nmE x) = kindE x. Proof. destruct x; try reflexivity. cbn [nmE kindE]. rewrite nz_nan. reflexivity. Qed.
  Lemma kind_nmF f : kindF (nmF f) = kindF f. Proof. destruct f; reflexivity. Qed.

  Section H.
    Variables (hd : dbl -> N) (hv hs : nat -> N) (htrue hfalse : N).
    Hypothesis HH : hash_ok hd.
    Notation hE := (hashE hd hv hs htrue hfalse). Notation hF := (hashF hd hv hs htrue hfalse).
    Variable Pv : var -> Prop.
    Variable lit : Prop.
    Notation nE := (numsE not_nan lit Pv). Notation nF := (numsF not_nan lit Pv).
    Lemma hd_nz c : not_nan c -> hd (nz c) = hd c. Proof. intros N. symmetry. apply HH, nz_deq, N. Qed.
    Lemma hvars_nv vs : hvars hv (map nv vs) = hvars hv vs. Proof. unfold hvars. rewrite map_map. reflexivity. Qed.
    Lemma hash_nm : (forall x, nE x -> hE (nmE x) = hE x) /\ (forall f, nF f -> hF (nmF f) = hF f).
    Proof.
      apply expr_formula_ind2.
      - intros c H. cbn [nmE hashE]. cbn zeta. change (EConst (nz c)) with (nmE (EConst c)). rewrite kind_nmE, nz_nan. cbn [numsE] in H. destruct (is_nan c) eqn:E; [reflexivity|]. rewrite hd_nz; [reflexivity|exact E].
      - intros a b u H. cbn [nmE hashE kindE numsE] in *. cbn zeta. rewrite hd_nz by tauto. reflexivity.
      - reflexivity.
      - intros c ts IH H. apply addP in H. destruct H as [Hc H]. cbn [nmE hashE kindE]. cbn zeta. rewrite hd_nz by exact Hc. do 3 f_equal. rewrite map_map. apply map_ext_in. intros [a k] Hin. rewrite Forall_forall in IH, H. destruct (H _ Hin) as [H1 H2]. specialize (IH _ Hin). cbn [fst snd] in *. rewrite (IH H1), hd_nz by exact H2. reflexivity.
      - intros c ts IH H. apply mulP in H. destruct H as [Hc H]. cbn [nmE hashE kindE]. cbn zeta. rewrite hd_nz by exact Hc. do 3 f_equal. rewrite map_map. apply map_ext_in. intros [a k] Hin. rewrite Forall_forall in IH, H. destruct (H _ Hin) as [H1 H2], (IH _ Hin) as [I1 I2]. cbn [fst snd] in *. rewrite (I1 H1), (I2 H2). reflexivity.
      - intros o a IH H. change (hE (nmE (EUn o a))) with (hcomb (N.of_nat (kindE (EUn o (nmE a)))) (hE (nmE a))). rewrite (IH H). destruct o; reflexivity.
      - intros o a b IHa IHb [H1 H2]. change (hE (nmE (EBin o a b))) with (hcomb (N.of_nat (kindE (EBin o (nmE a) (nmE b)))) (hcomb (hE (nmE a)) (hE (nmE b)))). rewrite (IHa H1), (IHb H2). destruct o; reflexivity.
      - intros f a b IHf IHa IHb (H1 & H2 & H3). change (hE (nmE (EIte f a b))) with (hcomb (N.of_nat 23) (hcomb (hcomb (hF (nmF f)) (hE (nmE a))) (hE (nmE b)))). rewrite (IHf H1), (IHa H2), (IHb H3). reflexivity.
      - intros n vs H. cbn [nmE hashE kindE]. cbn zeta. rewrite hvars_nv. reflexivity.
      - reflexivity.
      - reflexivity.
      - reflexivity.
      - intros o a b IHa IHb [H1 H2]. change (hF (nmF (FRel o a b))) with (hcomb (hcomb (hE (nmE a)) (hE (nmE b))) (N.of_nat (kindR o))). rewrite (IHa H1), (IHb H2). reflexivity.
      - intros fs IH H. cbn [numsF] in H. apply naryP in H. cbn [nmF hashF kindF]. cbn zeta. do 2 f_equal. rewrite map_map. apply map_ext_in. intros g Hg. rewrite Forall_forall in IH, H. auto.
      - intros fs IH H. cbn [numsF] in H. apply naryP in H. cbn [nmF hashF kindF]. cbn zeta. do 2 f_equal. rewrite map_map. apply map_ext_in. intros g Hg. rewrite Forall_forall in IH, H. auto.
      - intros f IH H. cbn [nmF hashF kindF]. cbn zeta. rewrite (IH H). reflexivity.
      - intros vs f IH [_ H]. change (hF (nmF (FForall vs f))) with (hcomb (hcomb (hvars hv (map nv vs)) (hF (nmF f))) (N.of_nat 12)). rewrite hvars_nv, (IH H). reflexivity.
    Qed.
    Variables (same : expr -> expr -> bool) (sameF : formula -> formula -> bool).
    Hypotheses (HS : cells same) (HSF : cells sameF).
    Notation eqE := (equalE same hd hv hs htrue hfalse sameF). Notation eqF := (equalF same hd hv hs htrue hfalse sameF).
    Lemma veq_nv v w : veq v w = true <-> nv v = nv w.
    Proof. unfold veq. rewrite Nat.eqb_eq. unfold nv. split; [intros ->; reflexivity|intros H; congruence]. Qed.
    Lemma equal_map {A B : Type} (eq : A -> A -> bool) (g : A -> B) (Q : A -> Prop) l : Forall (fun x => forall y, Q y -> (eq x y = true <-> g x = g y)) l -> forall m, Forall Q m -> (equal eq l m = true <-> map g l = map g m).
    Proof.
      induction 1 as [|x l E _ IH]; intros [|y m] Hm; cbn [equal map]; try (split; intros; congruence). inversion Hm as [|? ? Hy Hm']; subst. rewrite andb_true_iff, (E y Hy), (IH m Hm').
      split; [intros [-> ->]; reflexivity|intros X; split; congruence].
    Qed.
    Lemma vs_nv vs ws : equal veq vs ws = true <-> map nv vs = map nv ws.
    Proof. apply (equal_map veq nv (fun _ => True)); apply Forall_forall; [intros v _ w _; apply veq_nv|intros; exact I]. Qed.
    Lemma wrapE x y r : nE x -> nE y -> (kindE x = kindE y -> (r = true <-> nmE x = nmE y)) ->
      ((if same x y then true else if negb (Nat.eqb (kindE x) (kindE y)) then false else if negb (N.eqb (hE x) (hE y)) then false else r) = true <-> nmE x = nmE y).
    Proof.
      intros Hx Hy H. destruct (same x y) eqn:E; [apply HS in E; subst y; split; reflexivity|]. destruct (Nat.eqb (kindE x) (kindE y)) eqn:K; cbn [negb].
      - apply Nat.eqb_eq in K. destruct (N.eqb (hE x) (hE y)) eqn:Eh; cbn [negb]; [auto|]. apply N.eqb_neq in Eh. split; [discriminate|]. intros C. exfalso. apply Eh. rewrite <- (proj1 hash_nm x Hx), <- (proj1 hash_nm y Hy), C. reflexivity.
      - apply Nat.eqb_neq in K. split; [discriminate|]. intros C. exfalso. apply K. rewrite <- (kind_nmE x), <- (kind_nmE y), C. reflexivity.
    Qed.
    Lemma wrapF x y r : nF x -> nF y -> (kindF x = kindF y -> (r = true <-> nmF x = nmF y)) ->
      ((if sameF x y then true else if negb (Nat.eqb (kindF x) (kindF y)) then false else if negb (N.eqb (hF x) (hF y)) then false else r) = true <-> nmF x = nmF y).
    Proof.
      intros Hx Hy H. destruct (sameF x y) eqn:E; [apply HSF in E; subst y; split; reflexivity|]. destruct (Nat.eqb (kindF x) (kindF y)) eqn:K; cbn [negb].
      - apply Nat.eqb_eq in K. destruct (N.eqb (hF x) (hF y)) eqn:Eh; cbn [negb]; [auto|]. apply N.eqb_neq in Eh. split; [discriminate|]. intros C. exfalso. apply Eh. rewrite <- (proj2 hash_nm x Hx), <- (proj2 hash_nm y Hy), C. reflexivity.
      - apply Nat.eqb_neq in K. split; [discriminate|]. intros C. exfalso. apply K. rewrite <- (kind_nmF x), <- (kind_nmF y), C. reflexivity.
    Qed.
    Lemma kun o a o' b : kindE (EUn o a) = kindE (EUn o' b) -> o = o'. Proof. destruct o, o'; cbn; congruence. Qed.
    Lemma kbin o a a' o' b b' : kindE (EBin o a a') = kindE (EBin o' b b') -> o = o'. Proof. destruct o, o'; cbn; congruence. Qed.
    Lemma krel o o' : kindR o = kindR o' -> o = o'. Proof. destruct o, o'; cbn; congruence. Qed.
    Theorem equal_nm : (forall x y, nE x -> nE y -> (eqE x y = true <-> nmE x = nmE y)) /\ (forall f g, nF f -> nF g -> (eqF f g = true <-> nmF f = nmF g)).
    Proof.
      apply expr_formula_ind2.
      - intros c y Hx Hy. cbn [equalE]. apply wrapE; auto. intros K. destruct y as [d| | | | | | | |]; other K. cbn [numsE nmE kindE] in *. destruct (is_nan c) eqn:Ec, (is_nan d) eqn:Ed; try discriminate.
        + split; [intros _|reflexivity]. f_equal. destruct c, d; try discriminate. reflexivity.
        + rewrite nz_eq by assumption. split; [intros ->; reflexivity|intros X; congruence].
      - intros a b u y Hx Hy. cbn [equalE]. apply wrapE; auto. intros K. destruct y; other K. cbn [numsE nmE] in *. rewrite !andb_true_iff, !nz_eq, Bool.eqb_true_iff by tauto. split; [intros [[-> ->] ->]; reflexivity|intros X; repeat split; congruence].
      - intros v y Hx Hy. cbn [equalE]. apply wrapE; auto. intros K. destruct y; other K. cbn [nmE]. rewrite veq_nv. split; [intros ->; reflexivity|intros X; congruence].
      - intros c ts IH y Hx Hy. cbn [equalE]. apply wrapE; auto. intros K. destruct y as [| | |d us| | | | |]; other K. apply addP in Hx, Hy. destruct Hx as [Hc Hx], Hy as [Hd Hy]. cbn [nmE].
        rewrite andb_true_iff, nz_eq by assumption. rewrite (equal_map _ (fun p => match p with (a, k) => (nmE a, nz k) end) (fun p => nE (fst p) /\ not_nan (snd p)) ts); [split; [intros [-> ->]; reflexivity|intros X; split; congruence]| |exact Hy].
        rewrite Forall_forall in *. intros [a k] Hin [b j] [B1 B2]. destruct (Hx _ Hin) as [A1 A2]. specialize (IH _ Hin). cbn [fst snd] in *. rewrite andb_true_iff, (IH b A1 B1), nz_eq by assumption. split; [intros [-> ->]; reflexivity|intros X; split; congruence].
      - intros c ts IH y Hx Hy. cbn [equalE]. apply wrapE; auto. intros K. destruct y as [| | | |d us| | | |]; other K. apply mulP in Hx, Hy. destruct Hx as [Hc Hx], Hy as [Hd Hy]. cbn [nmE].
        rewrite andb_true_iff, nz_eq by assumption. rewrite (equal_map _ (fun p => match p with (a, k) => (nmE a, nmE k) end) (fun p => nE (fst p) /\ nE (snd p)) ts); [split; [intros [-> ->]; reflexivity|intros X; split; congruence]| |exact Hy].
        rewrite Forall_forall in *. intros [a k] Hin [b j] [B1 B2]. destruct (Hx _ Hin) as [A1 A2]. destruct (IH _ Hin) as [I1 I2]. cbn [fst snd] in *. rewrite andb_true_iff, (I1 b A1 B1), (I2 j A2 B2). split; [intros [-> ->]; reflexivity|intros X; split; congruence].
      - intros o a IH y Hx Hy. cbn [equalE]. apply wrapE; auto. intros K. destruct y as [| | | | |o' b| | |]; other K. apply kun in K. subst o'. cbn [nmE numsE] in *. rewrite (IH b Hx Hy). split; [intros ->; reflexivity|intros X; congruence].
      - intros o a b IHa IHb y Hx Hy. cbn [equalE]. apply wrapE; auto. intros K. destruct y as [| | | | | |o' c d| |]; other K. apply kbin in K. subst o'. destruct Hx, Hy. cbn [nmE]. rewrite andb_true_iff, (IHa c), (IHb d) by assumption. split; [intros [-> ->]; reflexivity|intros X; split; congruence].
      - intros f a b IHf IHa IHb y Hx Hy. cbn [equalE]. apply wrapE; auto. intros K. destruct y as [| | | | | | |g c d|]; other K. destruct Hx as (? & ? & ?), Hy as (? & ? & ?). cbn [nmE]. rewrite !andb_true_iff, (IHf g), (IHa c), (IHb d) by assumption. split; [intros [[-> ->] ->]; reflexivity|intros X; repeat split; congruence].
      - intros n vs y Hx Hy. cbn [equalE]. apply wrapE; auto. intros K. destruct y; other K. cbn [nmE]. rewrite andb_true_iff, Nat.eqb_eq, vs_nv. split; [intros [-> ->]; reflexivity|intros X; split; congruence].
      - intros g Hx Hy. cbn [equalF]. apply wrapF; auto. intros K. destruct g; other K. split; reflexivity.
      - intros g Hx Hy. cbn [equalF]. apply wrapF; auto. intros K. destruct g; other K. split; reflexivity.
      - intros v g Hx Hy. cbn [equalF]. apply wrapF; auto. intros K. destruct g; other K. cbn [nmF]. rewrite veq_nv. split; [intros ->; reflexivity|intros X; congruence].
      - intros o a b IHa IHb g Hx Hy. cbn [equalF]. apply wrapF; auto. intros K. destruct g as [| | |o' c d| | | |]; other K. apply krel in K. subst o'. destruct Hx, Hy. cbn [nmF]. rewrite andb_true_iff, (IHa c), (IHb d) by assumption. split; [intros [-> ->]; reflexivity|intros X; split; congruence].
      - intros fs IH g Hx Hy. cbn [equalF]. apply wrapF; auto. intros K. destruct g as [| | | |gs| | |]; other K. cbn [numsF] in *. apply naryP in Hx, Hy. cbn [nmF]. rewrite (equal_map _ nmF nF fs); [split; [intros ->; reflexivity|intros X; congruence]| |exact Hy]. rewrite Forall_forall in *. auto.
      - intros fs IH g Hx Hy. cbn [equalF]. apply wrapF; auto. intros K. destruct g as [| | | | |gs| |]; other K. cbn [numsF] in *. apply naryP in Hx, Hy. cbn [nmF]. rewrite (equal_map _ nmF nF fs); [split; [intros ->; reflexivity|intros X; congruence]| |exact Hy]. rewrite Forall_forall in *. auto.
      - intros f IH g Hx Hy. cbn [equalF]. apply wrapF; auto. intros K. destruct g as [| | | | | |g|]; other K. cbn [nmF numsF] in *. rewrite (IH g) by assumption. split; [intros ->; reflexivity|intros X; congruence].
      - intros vs f IH g Hx Hy. cbn [equalF]. apply wrapF; auto. intros K. destruct g as [| | | | | | |ws g]; other K. destruct Hx, Hy. cbn [nmF]. rewrite andb_true_iff, vs_nv, (IH g) by assumption. split; [intros [-> ->]; reflexivity|intros X; split; congruence].
    Qed.
  End H.
End Nm.
