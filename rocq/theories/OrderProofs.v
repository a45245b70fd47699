(** * The comparison is a strict weak order; equality against it *)
From Coq Require Import ZArith NArith Reals Lra Lia List Bool Arith Permutation.
From Flocq Require Import IEEE754.BinarySingleNaN.
From Verif Require Import Dbl DblProofs Syntax Sem SemProofs Order Less SpecOrder.
Import ListNotations.

(** ** Three-way comparisons *)
Definition ok3 (a b c : comparison) : Prop := (a = Eq -> c = b) /\ (b = Eq -> c = a) /\ (a = Lt -> b = Lt -> c = Lt) /\ (a = Gt -> b = Gt -> c = Gt).
Lemma ok3_thenc a b c a' b' c' : ok3 a b c -> ok3 a' b' c' -> ok3 (thenc a a') (thenc b b') (thenc c c').
Proof. unfold ok3. destruct a, b, c; cbn; intros (H1 & H2 & H3 & H4); try (specialize (H1 eq_refl); discriminate); try (specialize (H2 eq_refl); discriminate); try (specialize (H3 eq_refl eq_refl); discriminate); try (specialize (H4 eq_refl eq_refl); discriminate); intros H; auto; repeat split; intros; congruence. Qed.
Lemma ok3_nat a b c : ok3 (Nat.compare a b) (Nat.compare b c) (Nat.compare a c).
Proof.
  unfold ok3. destruct (Nat.compare_spec a b), (Nat.compare_spec b c); subst; repeat split; intros; try discriminate; try congruence; try (apply Nat.compare_lt_iff; lia); try (apply Nat.compare_gt_iff; lia); try (apply Nat.compare_eq_iff; lia); try (symmetry; first [apply Nat.compare_lt_iff; lia|apply Nat.compare_gt_iff; lia|apply Nat.compare_eq_iff; lia]).
Qed.
Lemma dlt_asym a b : dlt a b = true -> dlt b a = false.
Proof. intros H. destruct (dlt b a) eqn:E; [|reflexivity]. apply dlt_true in H, E. apply ext_lt_le in E. contradiction (H E). Qed.
Lemma dlt_irr a : dlt a a = false.
Proof. destruct (dlt a a) eqn:E; [|reflexivity]. rewrite (dlt_asym a a E) in E. discriminate. Qed.
Lemma dcmp_cases a b : not_nan a -> not_nan b -> (dcmp a b = Eq <-> d2e a = d2e b) /\ (dcmp a b = Lt <-> ext_lt (d2e a) (d2e b)) /\ (dcmp a b = Gt <-> ext_lt (d2e b) (d2e a)).
Proof.
  intros Na Nb. unfold dcmp. pose proof (dlt_spec a b Na Nb) as S1. pose proof (dlt_spec b a Nb Na) as S2.
  destruct (dlt a b) eqn:E1.
  - assert (L : ext_lt (d2e a) (d2e b)) by now apply S1. assert (N : ~ ext_lt (d2e b) (d2e a)) by (intros C; apply ext_lt_le in C; contradiction (L C)).
    repeat split; intros; try discriminate; try contradiction; auto. rewrite H in L. exfalso. apply L. apply ext_le_refl.
  - assert (L : ~ ext_lt (d2e a) (d2e b)) by (intros C; apply S1 in C; discriminate). destruct (dlt b a) eqn:E2.
    + assert (L2 : ext_lt (d2e b) (d2e a)) by now apply S2. repeat split; intros; try discriminate; try contradiction; auto. rewrite H in L2. exfalso. apply L2. apply ext_le_refl.
    + assert (L2 : ~ ext_lt (d2e b) (d2e a)) by (intros C; apply S2 in C; discriminate). repeat split; intros; try discriminate; try contradiction; auto.
      rewrite dlt_dle in E1, E2 by assumption. apply negb_false_iff in E1, E2. apply ext_le_antisym; apply dle_true; assumption.
Qed.
Lemma dcmp_refl a : dcmp a a = Eq. Proof. unfold dcmp. rewrite dlt_irr. reflexivity. Qed.
Lemma dcmp_opp a b : dcmp b a = CompOpp (dcmp a b).
Proof. unfold dcmp. destruct (dlt a b) eqn:E; [rewrite (dlt_asym _ _ E); reflexivity|]. destruct (dlt b a); reflexivity. Qed.
Lemma ok3_dbl a b c : not_nan a -> not_nan b -> not_nan c -> ok3 (dcmp a b) (dcmp b c) (dcmp a c).
Proof.
  intros Na Nb Nc. destruct (dcmp_cases a b Na Nb) as (A1 & A2 & A3), (dcmp_cases b c Nb Nc) as (B1 & B2 & B3), (dcmp_cases a c Na Nc) as (C1 & C2 & C3).
  split; [|split; [|split]].
  - intros H. apply A1 in H. destruct (dcmp b c) eqn:E; [apply C1; rewrite H; now apply B1|apply C2; rewrite H; now apply B2|apply C3; rewrite H; now apply B3].
  - intros H. apply B1 in H. destruct (dcmp a b) eqn:E; [apply C1; rewrite <- H; now apply A1|apply C2; rewrite <- H; now apply A2|apply C3; rewrite <- H; now apply A3].
  - intros H1 H2. apply C2. eapply ext_lt_le_trans; [apply A2; exact H1|apply ext_lt_le, B2, H2].
  - intros H1 H2. apply C3. eapply ext_lt_le_trans; [apply B3; exact H2|apply ext_lt_le, A3, H1].
Qed.
Lemma thenc_opp c d : CompOpp (thenc c d) = thenc (CompOpp c) (CompOpp d). Proof. destruct c; reflexivity. Qed.
Section LexLaws.
  Context {A : Type} (cmp : A -> A -> comparison).
  Lemma lex_refl l : Forall (fun x => cmp x x = Eq) l -> lex cmp l l = Eq.
  Proof. induction 1 as [|x l E _ IH]; [reflexivity|]. cbn [lex]. rewrite E. exact IH. Qed.
  Lemma lex_opp l : Forall (fun x => forall y, cmp y x = CompOpp (cmp x y)) l -> forall m, lex cmp m l = CompOpp (lex cmp l m).
  Proof. induction 1 as [|x l E _ IH]; intros [|y m]; try reflexivity. cbn [lex]. rewrite thenc_opp, E, IH. reflexivity. Qed.
  Lemma lex_ok3 (P : A -> Prop) l : Forall (fun x => forall y z, P x -> P y -> P z -> ok3 (cmp x y) (cmp y z) (cmp x z)) l ->
    forall m n, Forall P l -> Forall P m -> Forall P n -> ok3 (lex cmp l m) (lex cmp m n) (lex cmp l n).
  Proof.
    induction 1 as [|x l E _ IH]; intros [|y m] [|z n] Pl Pm Pn; cbn [lex]; try (unfold ok3; repeat split; intros; congruence).
    - inversion Pl; inversion Pm; inversion Pn; subst. apply ok3_thenc; [apply E; assumption|apply IH; assumption].
  Qed.
End LexLaws.
Lemma nat_opp a b : Nat.compare b a = CompOpp (Nat.compare a b). Proof. apply Nat.compare_antisym. Qed.
Lemma vlex_refl vs : lex vcmp vs vs = Eq.
Proof. apply lex_refl. apply Forall_forall. intros v _. apply Nat.compare_refl. Qed.
Lemma vlex_opp vs ws : lex vcmp ws vs = CompOpp (lex vcmp vs ws).
Proof. apply lex_opp. apply Forall_forall. intros v _ w. apply nat_opp. Qed.
Lemma vlex_ok3 us vs ws : ok3 (lex vcmp us vs) (lex vcmp vs ws) (lex vcmp us ws).
Proof. apply (lex_ok3 vcmp (fun _ => True)); try (apply Forall_forall; intros; exact I). apply Forall_forall. intros v _ y z _ _ _. apply ok3_nat. Qed.

(** ** Kinds *)
Lemma kind_cmpE x y : kindE x <> kindE y -> cmpE x y = Nat.compare (kindE x) (kindE y).
Proof.
  destruct x, y; try reflexivity; intros N; cbn [cmpE]; try (exfalso; apply N; reflexivity);
    (destruct (Nat.compare _ _) eqn:E; [apply Nat.compare_eq in E; contradiction (N E)|reflexivity|reflexivity]).
Qed.
Lemma kind_cmpF f g : kindF f <> kindF g -> cmpF f g = Nat.compare (kindF f) (kindF g).
Proof.
  destruct f, g; try reflexivity; intros N; cbn [cmpF]; try (exfalso; apply N; reflexivity);
    (destruct (Nat.compare _ _) eqn:E; [apply Nat.compare_eq in E; contradiction (N E)|reflexivity|reflexivity]).
Qed.
(** It is enough to compare things of one kind. *)
Lemma by_kind {A : Type} (kind : A -> nat) (cmp : A -> A -> comparison) (D : forall x y, kind x <> kind y -> cmp x y = Nat.compare (kind x) (kind y)) x y z :
  (kind x = kind y -> kind y = kind z -> ok3 (cmp x y) (cmp y z) (cmp x z)) -> ok3 (cmp x y) (cmp y z) (cmp x z).
Proof.
  intros H. destruct (Nat.eq_dec (kind x) (kind y)) as [E1|E1], (Nat.eq_dec (kind y) (kind z)) as [E2|E2]; [apply H; assumption| | |].
  - rewrite (D y z), (D x z) by congruence. rewrite <- E1. unfold ok3. destruct (Nat.compare (kind x) (kind z)) eqn:E; [apply Nat.compare_eq in E; congruence| |]; repeat split; intros; congruence.
  - rewrite (D x y), (D x z) by congruence. rewrite <- E2. unfold ok3. destruct (Nat.compare (kind x) (kind y)) eqn:E; [apply Nat.compare_eq in E; congruence| |]; repeat split; intros; congruence.
  - rewrite (D x y), (D y z) by congruence. destruct (Nat.eq_dec (kind x) (kind z)) as [E3|E3].
    + rewrite <- E3, (nat_opp (kind x)). unfold ok3. destruct (Nat.compare (kind x) (kind y)) eqn:E; [apply Nat.compare_eq in E; congruence| |]; repeat split; intros; discriminate.
    + rewrite (D x z) by assumption. apply ok3_nat.
Qed.

(** ** The laws of [cmpE], [cmpF] *)
Lemma cmp_refl : (forall x, cmpE x x = Eq) /\ (forall f, cmpF f f = Eq).
Proof.
  apply expr_formula_ind2; intros; cbn [cmpE cmpF]; rewrite ?Nat.compare_refl; cbn [thenc]; try reflexivity; try apply dcmp_refl; try apply Nat.compare_refl; try apply vlex_refl; try assumption.
  - rewrite dcmp_refl. cbn [thenc]. apply lex_refl. eapply Forall_impl; [|eassumption]. intros [a k]. cbn [fst]. intros ->. apply dcmp_refl.
  - rewrite dcmp_refl. cbn [thenc]. apply lex_refl. eapply Forall_impl; [|eassumption]. intros [a k]. cbn [fst snd]. intros [-> ->]. reflexivity.
  - rewrite H. exact H0.
  - rewrite H, H0. exact H1.
  - rewrite H. exact H0.
  - now apply lex_refl.
  - now apply lex_refl.
  - rewrite vlex_refl. exact H.
Qed.
Lemma cmp_opp : (forall x y, cmpE y x = CompOpp (cmpE x y)) /\ (forall f g, cmpF g f = CompOpp (cmpF f g)).
Proof.
  apply expr_formula_ind2.
  - intros c [d| | | | | | | |]; try apply nat_opp. cbn [cmpE]. rewrite thenc_opp, <- nat_opp, <- dcmp_opp. reflexivity.
  - intros a b u [| | | | | | | |]; try apply nat_opp. apply dcmp_opp.
  - intros v [| | | | | | | |]; apply nat_opp.
  - intros c ts H [| | |d us| | | | |]; try apply nat_opp. cbn [cmpE]. rewrite thenc_opp, <- dcmp_opp. f_equal. apply lex_opp. eapply Forall_impl; [|exact H].
    intros [a k] E [b j]. cbn [fst] in E. rewrite thenc_opp, <- E, <- dcmp_opp. reflexivity.
  - intros c ts H [| | | |d us| | | |]; try apply nat_opp. cbn [cmpE]. rewrite thenc_opp, <- dcmp_opp. f_equal. apply lex_opp. eapply Forall_impl; [|exact H].
    intros [a k] [E E'] [b j]. cbn [fst snd] in E, E'. rewrite thenc_opp, <- E, <- E'. reflexivity.
  - intros o a IH [| | | | |o' b| | |]; try apply nat_opp. cbn [cmpE]. rewrite thenc_opp, <- nat_opp, <- IH. reflexivity.
  - intros o a b IHa IHb [| | | | | |o' c d| |]; try apply nat_opp. cbn [cmpE]. rewrite !thenc_opp, <- nat_opp, <- IHa, <- IHb. reflexivity.
  - intros f a b IHf IHa IHb [| | | | | | |g c d|]; try apply nat_opp. cbn [cmpE]. rewrite !thenc_opp, <- IHf, <- IHa, <- IHb. reflexivity.
  - intros n vs [| | | | | | | |m ws]; try apply nat_opp. cbn [cmpE]. rewrite thenc_opp, <- nat_opp, <- vlex_opp. reflexivity.
  - intros [| | | | | | |]; apply nat_opp.
  - intros [| | | | | | |]; apply nat_opp.
  - intros v [| | | | | | |]; apply nat_opp.
  - intros o a b IHa IHb [| | |o' c d| | | |]; try apply nat_opp. cbn [cmpF]. rewrite !thenc_opp, <- nat_opp, <- IHa, <- IHb. reflexivity.
  - intros fs H [| | | |gs| | |]; try apply nat_opp. cbn [cmpF]. now apply lex_opp.
  - intros fs H [| | | | |gs| |]; try apply nat_opp. cbn [cmpF]. now apply lex_opp.
  - intros f IH [| | | | | |g|]; try apply nat_opp. apply IH.
  - intros vs f IH [| | | | | | |ws g]; try apply nat_opp. cbn [cmpF]. rewrite thenc_opp, <- vlex_opp, <- IH. reflexivity.
Qed.
Lemma kindun o a : kindE (EUn o a) = kindE (EUn o (EConst dzero)). Proof. destruct o; reflexivity. Qed.

Section Nums.
  Variables (Pd : dbl -> Prop) (lit : Prop) (Pv : var -> Prop).
  Lemma addP c ts : numsE Pd lit Pv (EAdd c ts) <-> Pd c /\ Forall (fun p => numsE Pd lit Pv (fst p) /\ Pd (snd p)) ts.
  Proof.
    cbn [numsE]. apply and_iff_compat_l. induction ts as [|[a k] ts IH]; cbn [fold_right]; [split; [constructor|auto]|]. rewrite IH. split.
    - intros (H1 & H2 & H3). constructor; [split; assumption|exact H3].
    - intros H. inversion H as [|? ? [H1 H2] H3]; subst. auto.
  Qed.
  Lemma mulP c ts : numsE Pd lit Pv (EMul c ts) <-> Pd c /\ Forall (fun p => numsE Pd lit Pv (fst p) /\ numsE Pd lit Pv (snd p)) ts.
  Proof.
    cbn [numsE]. apply and_iff_compat_l. induction ts as [|[a k] ts IH]; cbn [fold_right]; [split; [constructor|auto]|]. rewrite IH. split.
    - intros (H1 & H2 & H3). constructor; [split; assumption|exact H3].
    - intros H. inversion H as [|? ? [H1 H2] H3]; subst. auto.
  Qed.
  Lemma naryP fs : fold_right (fun g n => numsF Pd lit Pv g /\ n) True fs <-> Forall (numsF Pd lit Pv) fs.
  Proof. induction fs as [|g fs IH]; cbn [fold_right]; [split; [constructor|auto]|]. rewrite IH. split; [intros [? ?]; now constructor|intros H; inversion H; auto]. Qed.
End Nums.

Ltac other K := try (exfalso; cbn in K; unfold kindR in K; repeat match type of K with context [match ?x with _ => _ end] => destruct x end; discriminate K).
Lemma ok3_const c d e : (is_nan c = true \/ not_nan c) -> (is_nan d = true \/ not_nan d) -> (is_nan e = true \/ not_nan e) -> kindE (EConst c) = kindE (EConst d) -> kindE (EConst d) = kindE (EConst e) ->
  ok3 (dcmp c d) (dcmp d e) (dcmp c e).
Proof.
  cbn [kindE]. intros Hc Hd He K1 K2. destruct (is_nan c) eqn:Nc, (is_nan d) eqn:Nd, (is_nan e) eqn:Ne; try discriminate.
  - assert (X : forall a b, is_nan a = true -> dcmp a b = Eq) by (intros a b N; unfold dcmp; destruct (dlt a b) eqn:E; [apply dlt_not_nan in E; destruct E; congruence|]; destruct (dlt b a) eqn:E2; [apply dlt_not_nan in E2; destruct E2; congruence|reflexivity]).
    rewrite !X by assumption. unfold ok3. repeat split; intros; congruence.
  - apply ok3_dbl; assumption.
Qed.
Section Trans.
  Variables (lit : Prop) (Pv : var -> Prop).
  Notation nE := (numsE not_nan lit Pv). Notation nF := (numsF not_nan lit Pv).
  Lemma cmp_trans : (forall x y z, nE x -> nE y -> nE z -> ok3 (cmpE x y) (cmpE y z) (cmpE x z)) /\ (forall f g h, nF f -> nF g -> nF h -> ok3 (cmpF f g) (cmpF g h) (cmpF f h)).
  Proof.
    apply expr_formula_ind2.
    - intros c y z Hx Hy Hz. apply (by_kind kindE cmpE kind_cmpE). intros K1 K2. destruct y as [d| | | | | | | |]; other K1. destruct z as [e| | | | | | | |]; other K2.
      cbn [cmpE]. apply ok3_thenc; [apply ok3_nat|]. apply ok3_const; assumption.
    - intros a b u y z Hx Hy Hz. apply (by_kind kindE cmpE kind_cmpE). intros K1 K2. destruct y as [|a' b' u'| | | | | | |]; other K1. destruct z as [|a2 b2 u2| | | | | | |]; other K2.
      cbn [cmpE numsE] in *. assert (R : forall p q r, not_nan p -> not_nan q -> not_nan (rep p q r)) by (intros p q []; auto). apply ok3_dbl; apply R; tauto.
    - intros v y z _ _ _. apply (by_kind kindE cmpE kind_cmpE). intros K1 K2. destruct y; other K1. destruct z; other K2. apply ok3_nat.
    - intros c ts IH y z Hx Hy Hz. apply (by_kind kindE cmpE kind_cmpE). intros K1 K2. destruct y as [| | |d us| | | | |]; other K1. destruct z as [| | |e vs| | | | |]; other K2.
      apply addP in Hx, Hy, Hz. destruct Hx as [Hc Hx], Hy as [Hd Hy], Hz as [He Hz]. cbn [cmpE]. apply ok3_thenc; [now apply ok3_dbl|].
      eapply lex_ok3; [|exact Hx|exact Hy|exact Hz]. eapply Forall_impl; [|exact IH]. intros [a k] E [b j] [r i]. cbn [fst snd] in *. intros [A1 A2] [B1 B2] [C1 C2]. apply ok3_thenc; [apply E; assumption|apply ok3_dbl; assumption].
    - intros c ts IH y z Hx Hy Hz. apply (by_kind kindE cmpE kind_cmpE). intros K1 K2. destruct y as [| | | |d us| | | |]; other K1. destruct z as [| | | |e vs| | | |]; other K2.
      apply mulP in Hx, Hy, Hz. destruct Hx as [Hc Hx], Hy as [Hd Hy], Hz as [He Hz]. cbn [cmpE]. apply ok3_thenc; [now apply ok3_dbl|].
      eapply lex_ok3; [|exact Hx|exact Hy|exact Hz]. eapply Forall_impl; [|exact IH]. intros [a k] [E E'] [b j] [r i]. cbn [fst snd] in *. intros [A1 A2] [B1 B2] [C1 C2]. apply ok3_thenc; [apply E; assumption|apply E'; assumption].
    - intros o a IH y z Hx Hy Hz. apply (by_kind kindE cmpE kind_cmpE). intros K1 K2. destruct y as [| | | | |o' b| | |]; other K1. destruct z as [| | | | |o2 e| | |]; other K2.
      cbn [cmpE numsE] in *. apply ok3_thenc; [apply ok3_nat|now apply IH].
    - intros o a b IHa IHb y z Hx Hy Hz. apply (by_kind kindE cmpE kind_cmpE). intros K1 K2. destruct y; other K1. destruct z; other K2.
      cbn [cmpE numsE] in *. destruct Hx, Hy, Hz. apply ok3_thenc; [apply ok3_nat|apply ok3_thenc; auto].
    - intros f a b IHf IHa IHb y z Hx Hy Hz. apply (by_kind kindE cmpE kind_cmpE). intros K1 K2. destruct y; other K1. destruct z; other K2.
      cbn [cmpE]. change (nF f /\ nE a /\ nE b) in Hx. destruct Hx as (? & ? & ?), Hy as (? & ? & ?), Hz as (? & ? & ?). apply ok3_thenc; [auto|apply ok3_thenc; auto].
    - intros n vs y z _ _ _. apply (by_kind kindE cmpE kind_cmpE). intros K1 K2. destruct y; other K1. destruct z; other K2. cbn [cmpE]. apply ok3_thenc; [apply ok3_nat|apply vlex_ok3].
    - intros g h _ _ _. apply (by_kind kindF cmpF kind_cmpF). intros K1 K2. destruct g; other K1. destruct h; other K2. apply ok3_nat.
    - intros g h _ _ _. apply (by_kind kindF cmpF kind_cmpF). intros K1 K2. destruct g; other K1. destruct h; other K2. apply ok3_nat.
    - intros v g h _ _ _. apply (by_kind kindF cmpF kind_cmpF). intros K1 K2. destruct g; other K1. destruct h; other K2. apply ok3_nat.
    - intros o a b IHa IHb g h Hx Hy Hz. apply (by_kind kindF cmpF kind_cmpF). intros K1 K2. destruct g; other K1. destruct h; other K2.
      cbn [cmpF]. destruct Hx, Hy, Hz. apply ok3_thenc; [apply ok3_nat|apply ok3_thenc; auto].
    - intros fs IH g h Hx Hy Hz. apply (by_kind kindF cmpF kind_cmpF). intros K1 K2. destruct g; other K1. destruct h; other K2.
      cbn [cmpF numsF] in *. rewrite naryP in *. eapply lex_ok3; eassumption.
    - intros fs IH g h Hx Hy Hz. apply (by_kind kindF cmpF kind_cmpF). intros K1 K2. destruct g; other K1. destruct h; other K2.
      cbn [cmpF numsF] in *. rewrite naryP in *. eapply lex_ok3; eassumption.
    - intros f IH g h Hx Hy Hz. apply (by_kind kindF cmpF kind_cmpF). intros K1 K2. destruct g; other K1. destruct h; other K2. cbn [cmpF numsF] in *. now apply IH.
    - intros vs f IH g h Hx Hy Hz. apply (by_kind kindF cmpF kind_cmpF). intros K1 K2. destruct g; other K1. destruct h; other K2. cbn [cmpF numsF] in *. destruct Hx, Hy, Hz. apply ok3_thenc; [apply vlex_ok3|now apply IH].
  Qed.
End Trans.
