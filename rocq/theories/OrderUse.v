(** * EqualTo and Less agree; meaning; sets of formulas *)
From Coq Require Import ZArith NArith Reals Lra Lia List Bool Arith ClassicalDescription.
From Flocq Require Import IEEE754.BinarySingleNaN.
From Verif Require Import Dbl DblProofs Syntax Sem SemProofs Order Less SpecOrder OrderProofs OrderTop OrderEq.
Import ListNotations.
Local Notation R := Rdefinitions.R.

Lemma thenc_eqs c d : thenc c d = Eq -> c = Eq /\ d = Eq. Proof. destruct c; cbn; auto; discriminate. Qed.
Lemma dcmp_deq a b : not_nan a -> not_nan b -> (dcmp a b = Eq <-> deq a b = true).
Proof. intros Na Nb. rewrite (proj1 (dcmp_cases a b Na Nb)), deq_spec by assumption. reflexivity. Qed.
Lemma nz_ok c : not_nan c -> not_nan (nz c). Proof. unfold not_nan. now rewrite nz_nan. Qed.
Lemma dcmp_nz c : not_nan c -> dcmp c (nz c) = Eq.
Proof. intros N. apply dcmp_deq; [exact N|now apply nz_ok|now apply nz_deq]. Qed.
Section C.
  Variable ty : nat -> vtype.
  Notation nmE := (nmE ty). Notation nmF := (nmF ty). Notation nv := (nv ty).
  Lemma vlex_nv vs : lex vcmp vs (map nv vs) = Eq.
  Proof. induction vs as [|v vs IH]; [reflexivity|]. cbn [map lex]. unfold vcmp at 1. cbn [OrderEq.nv vid]. rewrite Nat.compare_refl. exact IH. Qed.
  Section Lit.
    Variable lit : Prop.
    Notation nE := (numsE not_nan lit (fun _ => True)). Notation nF := (numsF not_nan lit (fun _ => True)).
    Lemma allT (A : Type) (l : list A) : Forall (fun _ => True) l. Proof. apply Forall_forall. intros; exact I. Qed.
    Lemma nm_nums : (forall x, nE x -> nE (nmE x)) /\ (forall f, nF f -> nF (nmF f)).
    Proof.
      apply expr_formula_ind2; cbn [OrderEq.nmE OrderEq.nmF]; intros.
      - cbn [numsE] in *. rewrite nz_nan. destruct H; [auto|right; now apply nz_ok].
      - cbn [numsE] in *. destruct H as (? & ? & ?). split; [assumption|split; now apply nz_ok].
      - exact I.
      - apply addP in H0. apply addP. destruct H0 as [Hc H0]. split; [now apply nz_ok|]. rewrite Forall_forall in *. intros p Hp. apply in_map_iff in Hp. destruct Hp as ([a k] & <- & Hin). destruct (H0 _ Hin) as [A B]. split; [apply (H _ Hin A)|now apply nz_ok].
      - apply mulP in H0. apply mulP. destruct H0 as [Hc H0]. split; [now apply nz_ok|]. rewrite Forall_forall in *. intros p Hp. apply in_map_iff in Hp. destruct Hp as ([a k] & <- & Hin). destruct (H0 _ Hin) as [A B], (H _ Hin) as [C D]. split; auto.
      - cbn [numsE] in *. auto.
      - cbn [numsE] in *. destruct H1. auto.
      - destruct H2 as (X & Y & Z). exact (conj (H X) (conj (H0 Y) (H1 Z))).
      - cbn [numsE]. apply allT.
      - exact I.
      - exact I.
      - exact I.
      - destruct H1 as [X Y]. exact (conj (H X) (H0 Y)).
      - cbn [numsF] in *. apply naryP in H0. apply naryP. rewrite Forall_forall in *. intros g Hg. apply in_map_iff in Hg. destruct Hg as (h & <- & Hh). auto.
      - cbn [numsF] in *. apply naryP in H0. apply naryP. rewrite Forall_forall in *. intros g Hg. apply in_map_iff in Hg. destruct Hg as (h & <- & Hh). auto.
      - cbn [numsF] in *. auto.
      - destruct H0 as [X Y]. exact (conj (allT _ _) (H Y)).
    Qed.
    Lemma cmp_nm : (forall x, nE x -> cmpE x (nmE x) = Eq) /\ (forall f, nF f -> cmpF f (nmF f) = Eq).
    Proof.
      apply expr_formula_ind2.
      - intros c H. cbn [OrderEq.nmE cmpE]. change (EConst (nz c)) with (nmE (EConst c)). rewrite kind_nmE, Nat.compare_refl. cbn [thenc numsE] in *. destruct H as [N|N]; [now apply nan_cmp|now apply dcmp_nz].
      - intros a b u (_ & Ha & Hb). cbn [OrderEq.nmE cmpE]. destruct u; now apply dcmp_nz.
      - intros v _. apply Nat.compare_refl.
      - intros c ts IH H. apply addP in H. destruct H as [Hc H]. cbn [OrderEq.nmE cmpE]. rewrite dcmp_nz by exact Hc. cbn [thenc]. induction ts as [|[a k] ts IHt]; [reflexivity|]. inversion IH as [|? ? I1 I2]; subst. inversion H as [|? ? [A B] H2]; subst. cbn [map lex fst snd] in *. rewrite (I1 A). cbn [thenc]. rewrite dcmp_nz by exact B. exact (IHt I2 H2).
      - intros c ts IH H. apply mulP in H. destruct H as [Hc H]. cbn [OrderEq.nmE cmpE]. rewrite dcmp_nz by exact Hc. cbn [thenc]. induction ts as [|[a k] ts IHt]; [reflexivity|]. inversion IH as [|? ? [I1 I1'] I2]; subst. inversion H as [|? ? [A B] H2]; subst. cbn [map lex fst snd] in *. rewrite (I1 A). cbn [thenc]. rewrite (I1' B). exact (IHt I2 H2).
      - intros o a IH H. cbn [OrderEq.nmE cmpE]. rewrite (IH H). change (EUn o (nmE a)) with (nmE (EUn o a)). rewrite kind_nmE, Nat.compare_refl. reflexivity.
      - intros o a b IHa IHb [H1 H2]. cbn [OrderEq.nmE cmpE]. rewrite (IHa H1), (IHb H2). change (EBin o (nmE a) (nmE b)) with (nmE (EBin o a b)). rewrite kind_nmE, Nat.compare_refl. reflexivity.
      - intros f a b IHf IHa IHb (H1 & H2 & H3). change (thenc (cmpF f (nmF f)) (thenc (cmpE a (nmE a)) (cmpE b (nmE b))) = Eq). rewrite (IHf H1), (IHa H2), (IHb H3). reflexivity.
      - intros n vs _. cbn [OrderEq.nmE cmpE]. rewrite Nat.compare_refl. apply vlex_nv.
      - reflexivity.
      - reflexivity.
      - intros v _. apply Nat.compare_refl.
      - intros o a b IHa IHb [H1 H2]. change (thenc (Nat.compare (kindR o) (kindR o)) (thenc (cmpE a (nmE a)) (cmpE b (nmE b))) = Eq). rewrite Nat.compare_refl, (IHa H1), (IHb H2). reflexivity.
      - intros fs IH H. cbn [numsF] in H. apply naryP in H. cbn [OrderEq.nmF cmpF]. induction fs as [|g fs IHf]; [reflexivity|]. inversion IH; inversion H; subst. cbn [map lex]. rewrite H2 by assumption. cbn [thenc]. auto.
      - intros fs IH H. cbn [numsF] in H. apply naryP in H. cbn [OrderEq.nmF cmpF]. induction fs as [|g fs IHf]; [reflexivity|]. inversion IH; inversion H; subst. cbn [map lex]. rewrite H2 by assumption. cbn [thenc]. auto.
      - intros f IH H. exact (IH H).
      - intros vs f IH [_ H]. change (thenc (lex vcmp vs (map nv vs)) (cmpF f (nmF f)) = Eq). rewrite vlex_nv. exact (IH H).
    Qed.
    Lemma nm_cmp : (forall x y, nE x -> nE y -> nmE x = nmE y -> cmpE x y = Eq) /\ (forall f g, nF f -> nF g -> nmF f = nmF g -> cmpF f g = Eq).
    Proof.
      split.
      - intros x y Hx Hy E. destruct (proj1 (cmp_trans lit (fun _ => True)) x (nmE x) y Hx (proj1 nm_nums x Hx) Hy) as (T & _). rewrite (T (proj1 cmp_nm x Hx)), E. rewrite (proj1 cmp_opp y (nmE y)), (proj1 cmp_nm y Hy). reflexivity.
      - intros x y Hx Hy E. destruct (proj2 (cmp_trans lit (fun _ => True)) x (nmF x) y Hx (proj2 nm_nums x Hx) Hy) as (T & _). rewrite (T (proj2 cmp_nm x Hx)), E. rewrite (proj2 cmp_opp y (nmF y)), (proj2 cmp_nm y Hy). reflexivity.
    Qed.
  End Lit.
  (** Without literals, what is unordered is equal. *)
  Notation pE := (numsE not_nan False (fun _ => True)). Notation pF := (numsF not_nan False (fun _ => True)).
  Lemma vcmp_nv v w : vcmp v w = Eq -> nv v = nv w.
  Proof. intros H. apply Nat.compare_eq in H. unfold OrderEq.nv. rewrite H. reflexivity. Qed.
  Lemma vlex_eqs vs : forall ws, lex vcmp vs ws = Eq -> map nv vs = map nv ws.
  Proof. induction vs as [|v vs IH]; intros [|w ws] E; try discriminate; [reflexivity|]. cbn [lex] in E. apply thenc_eqs in E. destruct E as [E1 E2]. cbn [map]. rewrite (vcmp_nv _ _ E1), (IH _ E2). reflexivity. Qed.
  Lemma dcmp_nzs a b : not_nan a -> not_nan b -> dcmp a b = Eq -> nz a = nz b.
  Proof. intros Na Nb H. apply nz_eq; auto. now apply dcmp_deq. Qed.
  Lemma eq_kindE x y : cmpE x y = Eq -> kindE x = kindE y.
  Proof. intros E. destruct (Nat.eq_dec (kindE x) (kindE y)) as [K|K]; [exact K|]. rewrite (kind_cmpE x y K) in E. now apply Nat.compare_eq. Qed.
  Lemma eq_kindF x y : cmpF x y = Eq -> kindF x = kindF y.
  Proof. intros E. destruct (Nat.eq_dec (kindF x) (kindF y)) as [K|K]; [exact K|]. rewrite (kind_cmpF x y K) in E. now apply Nat.compare_eq. Qed.
  Lemma cmp_nms : (forall x y, pE x -> pE y -> cmpE x y = Eq -> nmE x = nmE y) /\ (forall f g, pF f -> pF g -> cmpF f g = Eq -> nmF f = nmF g).
  Proof.
    apply expr_formula_ind2.
    - intros c y Hx Hy E. pose proof (eq_kindE _ _ E) as K. destruct y as [d| | | | | | | |]; other K. cbn [numsE cmpE OrderEq.nmE kindE] in *. rewrite K, Nat.compare_refl in E. cbn [thenc] in E. destruct (is_nan c) eqn:Ec, (is_nan d) eqn:Ed; try discriminate.
      + destruct c, d; try discriminate. reflexivity.
      + rewrite (dcmp_nzs c d Ec Ed E). reflexivity.
    - intros a b u y [[] _].
    - intros v y Hx Hy E. pose proof (eq_kindE _ _ E) as K. destruct y; other K. cbn [OrderEq.nmE cmpE] in *. rewrite (vcmp_nv _ _ E). reflexivity.
    - intros c ts IH y Hx Hy E. pose proof (eq_kindE _ _ E) as K. destruct y as [| | |d us| | | | |]; other K. apply addP in Hx, Hy. destruct Hx as [Hc Hx], Hy as [Hd Hy]. cbn [cmpE OrderEq.nmE] in *. apply thenc_eqs in E. destruct E as [E1 E]. rewrite (dcmp_nzs c d Hc Hd E1). f_equal.
      clear E1 Hc Hd c d K. revert us Hy E. induction ts as [|[a k] ts IHt]; intros [|[b j] us] Hy E; try discriminate; [reflexivity|]. inversion IH as [|? ? I1 I2]; subst. inversion Hx as [|? ? [A B] H2]; subst. inversion Hy as [|? ? [A' B'] H2']; subst. cbn [map lex fst snd] in *. apply thenc_eqs in E. destruct E as [E1 E2]. apply thenc_eqs in E1. destruct E1 as [E0 E1].
      rewrite (I1 b A A' E0), (dcmp_nzs k j B B' E1). f_equal. apply IHt; assumption.
    - intros c ts IH y Hx Hy E. pose proof (eq_kindE _ _ E) as K. destruct y as [| | | |d us| | | |]; other K. apply mulP in Hx, Hy. destruct Hx as [Hc Hx], Hy as [Hd Hy]. cbn [cmpE OrderEq.nmE] in *. apply thenc_eqs in E. destruct E as [E1 E]. rewrite (dcmp_nzs c d Hc Hd E1). f_equal.
      clear E1 Hc Hd c d K. revert us Hy E. induction ts as [|[a k] ts IHt]; intros [|[b j] us] Hy E; try discriminate; [reflexivity|]. inversion IH as [|? ? [I1 I1'] I2]; subst. inversion Hx as [|? ? [A B] H2]; subst. inversion Hy as [|? ? [A' B'] H2']; subst. cbn [map lex fst snd] in *. apply thenc_eqs in E. destruct E as [E1 E2]. apply thenc_eqs in E1. destruct E1 as [E0 E1].
      rewrite (I1 b A A' E0), (I1' j B B' E1). f_equal. apply IHt; assumption.
    - intros o a IH y Hx Hy E. pose proof (eq_kindE _ _ E) as K. destruct y as [| | | | |o' b| | |]; other K. cbn [cmpE OrderEq.nmE numsE] in *. apply thenc_eqs in E. destruct E as [_ E]. apply kun in K. rewrite K, (IH b Hx Hy E). reflexivity.
    - intros o a b IHa IHb y Hx Hy E. pose proof (eq_kindE _ _ E) as K. destruct y as [| | | | | |o' c d| |]; other K. destruct Hx, Hy. cbn [cmpE OrderEq.nmE] in *. apply thenc_eqs in E. destruct E as [_ E]. apply thenc_eqs in E. destruct E as [E1 E2]. apply kbin in K. rewrite K, (IHa c), (IHb d) by assumption. reflexivity.
    - intros f a b IHf IHa IHb y Hx Hy E. pose proof (eq_kindE _ _ E) as K. destruct y as [| | | | | | |g c d|]; other K. destruct Hx as (? & ? & ?), Hy as (? & ? & ?). cbn [cmpE] in E. apply thenc_eqs in E. destruct E as [E0 E]. apply thenc_eqs in E. destruct E as [E1 E2]. change (EIte (nmF f) (nmE a) (nmE b) = EIte (nmF g) (nmE c) (nmE d)). rewrite (IHf g), (IHa c), (IHb d) by assumption. reflexivity.
    - intros n vs y Hx Hy E. pose proof (eq_kindE _ _ E) as K. destruct y; other K. cbn [cmpE OrderEq.nmE] in *. apply thenc_eqs in E. destruct E as [E1 E2]. apply Nat.compare_eq in E1. rewrite E1, (vlex_eqs _ _ E2). reflexivity.
    - intros g _ _ E. pose proof (eq_kindF _ _ E) as K. destruct g; other K. reflexivity.
    - intros g _ _ E. pose proof (eq_kindF _ _ E) as K. destruct g; other K. reflexivity.
    - intros v g _ _ E. pose proof (eq_kindF _ _ E) as K. destruct g; other K. cbn [OrderEq.nmF cmpF] in *. rewrite (vcmp_nv _ _ E). reflexivity.
    - intros o a b IHa IHb g Hx Hy E. pose proof (eq_kindF _ _ E) as K. destruct g as [| | |o' c d| | | |]; other K. destruct Hx, Hy. cbn [cmpF] in E. apply thenc_eqs in E. destruct E as [_ E]. apply thenc_eqs in E. destruct E as [E1 E2]. apply krel in K. change (FRel o (nmE a) (nmE b) = FRel o' (nmE c) (nmE d)). rewrite K, (IHa c), (IHb d) by assumption. reflexivity.
    - intros fs IH g Hx Hy E. pose proof (eq_kindF _ _ E) as K. destruct g as [| | | |gs| | |]; other K. cbn [numsF cmpF OrderEq.nmF] in *. apply naryP in Hx, Hy. f_equal. clear K. revert gs Hy E. induction fs as [|f fs IHf]; intros [|g gs] Hy E; try discriminate; [reflexivity|]. inversion IH; inversion Hx; inversion Hy; subst. cbn [lex map] in *. apply thenc_eqs in E. destruct E as [E1 E2]. f_equal; [auto|apply IHf; assumption].
    - intros fs IH g Hx Hy E. pose proof (eq_kindF _ _ E) as K. destruct g as [| | | | |gs| |]; other K. cbn [numsF cmpF OrderEq.nmF] in *. apply naryP in Hx, Hy. f_equal. clear K. revert gs Hy E. induction fs as [|f fs IHf]; intros [|g gs] Hy E; try discriminate; [reflexivity|]. inversion IH; inversion Hx; inversion Hy; subst. cbn [lex map] in *. apply thenc_eqs in E. destruct E as [E1 E2]. f_equal; [auto|apply IHf; assumption].
    - intros f IH g Hx Hy E. pose proof (eq_kindF _ _ E) as K. destruct g as [| | | | | |g|]; other K. cbn [numsF cmpF OrderEq.nmF] in *. rewrite (IH g Hx Hy E). reflexivity.
    - intros vs f IH g Hx Hy E. pose proof (eq_kindF _ _ E) as K. destruct g as [| | | | | | |ws g]; other K. destruct Hx, Hy. cbn [cmpF] in E. apply thenc_eqs in E. destruct E as [E1 E2]. change (FForall (map nv vs) (nmF f) = FForall (map nv ws) (nmF g)). rewrite (vlex_eqs _ _ E1), (IH g) by assumption. reflexivity.
  Qed.
  (** The normal form has the same meaning, if identifiers determine types. *)
  Section Mean.
    Variables (M : interp) (lit : Prop).
    Hypothesis HL : literals_ok (i_rc M).
    Notation tE := (numsE not_nan lit (typed ty)). Notation tF := (numsF not_nan lit (typed ty)).
    Lemma nv_id v : typed ty v -> nv v = v. Proof. intros H. unfold OrderEq.nv. rewrite <- H. destruct v; reflexivity. Qed.
    Lemma nvs_id vs : Forall (typed ty) vs -> map nv vs = vs.
    Proof. induction 1 as [|v vs H _ IH]; [reflexivity|]. cbn [map]. rewrite (nv_id v H), IH. reflexivity. Qed.
    Lemma nm_mean : (forall x, tE x -> forall rho, evalE M (nmE x) rho = evalE M x rho) /\ (forall f, tF f -> forall rho, holds M (nmF f) rho <-> holds M f rho).
    Proof.
      apply expr_formula_ind2.
      - intros c _ rho. apply nz_R.
      - intros a b u (_ & Ha & Hb) rho. cbn [OrderEq.nmE evalE]. symmetry. apply HL; now apply nz_deq.
      - intros v H rho. cbn [OrderEq.nmE evalE]. rewrite (nv_id v H). reflexivity.
      - intros c ts IH H rho. apply addP in H. destruct H as [_ H]. cbn [OrderEq.nmE evalE]. rewrite nz_R. induction ts as [|[a k] ts IHt]; [reflexivity|]. inversion IH as [|? ? I1 I2]; subst. inversion H as [|? ? [A _] H2]; subst. cbn [map fold_right fst snd] in *. rewrite (IHt I2 H2), (I1 A), nz_R. reflexivity.
      - intros c ts IH H rho. apply mulP in H. destruct H as [_ H]. cbn [OrderEq.nmE evalE]. rewrite nz_R. induction ts as [|[a k] ts IHt]; [reflexivity|]. inversion IH as [|? ? [I1 I1'] I2]; subst. inversion H as [|? ? [A B] H2]; subst. cbn [map fold_right fst snd] in *. rewrite (IHt I2 H2), (I1 A), (I1' B). reflexivity.
      - intros o a IHa H rho. cbn [OrderEq.nmE evalE]. rewrite (IHa H). reflexivity.
      - intros o a b IHa IHb [H1 H2] rho. cbn [OrderEq.nmE evalE]. rewrite (IHa H1), (IHb H2). reflexivity.
      - intros f a b IHf IHa IHb (H1 & H2 & H3) rho. change (evalE M (nmE (EIte f a b)) rho) with (if excluded_middle_informative (holds M (nmF f) rho) then evalE M (nmE a) rho else evalE M (nmE b) rho).
        change (evalE M (EIte f a b) rho) with (if excluded_middle_informative (holds M f rho) then evalE M a rho else evalE M b rho). rewrite (IHa H2), (IHb H3). specialize (IHf H1 rho).
        destruct (excluded_middle_informative (holds M (nmF f) rho)), (excluded_middle_informative (holds M f rho)); try reflexivity; exfalso; tauto.
      - intros n vs H rho. cbn [OrderEq.nmE evalE]. rewrite (nvs_id vs H). reflexivity.
      - intros _ rho. exact (iff_refl _).
      - intros _ rho. exact (iff_refl _).
      - intros v H rho. cbn [OrderEq.nmF]. rewrite (nv_id v H). exact (iff_refl _).
      - intros o a b IHa IHb [H1 H2] rho. change (relR o (evalE M (nmE a) rho) (evalE M (nmE b) rho) <-> relR o (evalE M a rho) (evalE M b rho)). rewrite (IHa H1), (IHb H2). exact (iff_refl _).
      - intros fs IH H rho. cbn [numsF] in H. apply naryP in H. cbn [OrderEq.nmF holds]. induction fs as [|g fs IHf]; [exact (iff_refl _)|]. inversion IH as [|? ? I1 I2]; subst. inversion H as [|? ? A B]; subst. cbn [map fold_right]. rewrite (I1 A rho), (IHf I2 B). exact (iff_refl _).
      - intros fs IH H rho. cbn [numsF] in H. apply naryP in H. cbn [OrderEq.nmF holds]. induction fs as [|g fs IHf]; [exact (iff_refl _)|]. inversion IH as [|? ? I1 I2]; subst. inversion H as [|? ? A B]; subst. cbn [map fold_right]. rewrite (I1 A rho), (IHf I2 B). exact (iff_refl _).
      - intros f IH H rho. cbn [OrderEq.nmF holds]. rewrite (IH H rho). exact (iff_refl _).
      - intros vs f IH [Hv H] rho. cbn [OrderEq.nmF holds]. rewrite (nvs_id vs Hv). split; intros X rho' A B; apply (IH H rho'); auto.
    Qed.
  End Mean.
End C.
Lemma nums_weaken (Pd Pd' : dbl -> Prop) (lit lit' : Prop) (Pv Pv' : var -> Prop) : (forall c, Pd c -> Pd' c) -> (lit -> lit') -> (forall v, Pv v -> Pv' v) ->
  (forall x, numsE Pd lit Pv x -> numsE Pd' lit' Pv' x) /\ (forall f, numsF Pd lit Pv f -> numsF Pd' lit' Pv' f).
Proof.
  intros HD HT HV. apply expr_formula_ind2; intros.
  - cbn [numsE] in *. destruct H; auto.
  - cbn [numsE] in *. destruct H as (? & ? & ?). auto.
  - apply HV, H.
  - apply addP in H0. apply addP. destruct H0 as [? H0]. split; [auto|]. rewrite Forall_forall in *. intros p Hp. destruct (H0 p Hp). split; auto.
  - apply mulP in H0. apply mulP. destruct H0 as [? H0]. split; [auto|]. rewrite Forall_forall in *. intros p Hp. destruct (H0 p Hp), (H p Hp). split; auto.
  - exact (H H0).
  - destruct H1 as [X Y]. exact (conj (H X) (H0 Y)).
  - destruct H2 as (X & Y & Z). exact (conj (H X) (conj (H0 Y) (H1 Z))).
  - cbn [numsE] in *. eapply Forall_impl; [|exact H]. auto.
  - exact I.
  - exact I.
  - apply HV, H.
  - destruct H1 as [X Y]. exact (conj (H X) (H0 Y)).
  - cbn [numsF] in *. apply naryP in H0. apply naryP. rewrite Forall_forall in *. auto.
  - cbn [numsF] in *. apply naryP in H0. apply naryP. rewrite Forall_forall in *. auto.
  - exact (H H0).
  - destruct H0 as [X Y]. refine (conj _ (H Y)). eapply Forall_impl; [|exact X]. auto.
Qed.

(** ** The theorems *)
Section Top.
  Variables (same : expr -> expr -> bool) (sameF : formula -> formula -> bool) (hd : dbl -> N) (hv hs : nat -> N) (htrue hfalse : N).
  Hypotheses (HS : cells same) (HSF : cells sameF) (HH : hash_ok hd).
  Notation eqE := (equalE same hd hv hs htrue hfalse sameF). Notation eqF := (equalF same hd hv hs htrue hfalse sameF).
  Let ty0 (i : nat) : vtype := CONTINUOUS.
  Let EQ := fun lit Pv => equal_nm ty0 hd hv hs htrue hfalse HH Pv lit same sameF HS HSF.
  Theorem equal_laws : equivalence nonanE eqE /\ equivalence nonanF eqF /\
    (forall x y, nonanE x -> nonanE y -> eqE x y = true -> unordered (lessE same) x y) /\ (forall f g, nonanF f -> nonanF g -> eqF f g = true -> unordered (lessF same) f g).
  Proof.
    destruct (EQ True (fun _ => True)) as [Q1 Q2]. split; [|split; [|split]].
    - split; [|split]; intros.
      + apply Q1; auto.
      + rewrite Q1 in *; auto.
      + rewrite Q1 in *; auto. congruence.
    - split; [|split]; intros.
      + apply Q2; auto.
      + rewrite Q2 in *; auto.
      + rewrite Q2 in *; auto. congruence.
    - intros x y Hx Hy E. apply (un_cmp same HS). apply Q1 in E; auto. apply (nm_cmp ty0 True); assumption.
    - intros x y Hx Hy E. apply (un_cmp same HS). apply Q2 in E; auto. apply (nm_cmp ty0 True); assumption.
  Qed.
  Theorem equal_iff_unordered : (forall x y, plainlyE x -> plainlyE y -> (eqE x y = true <-> unordered (lessE same) x y)) /\ (forall f g, plainlyF f -> plainlyF g -> (eqF f g = true <-> unordered (lessF same) f g)).
  Proof.
    destruct (EQ False (fun _ => True)) as [Q1 Q2]. destruct (un_cmp same HS) as [U1 U2]. split; intros x y Hx Hy.
    - rewrite (Q1 x y Hx Hy), U1. split; [apply (nm_cmp ty0 False); assumption|apply (cmp_nms ty0); assumption].
    - rewrite (Q2 x y Hx Hy), U2. split; [apply (nm_cmp ty0 False); assumption|apply (cmp_nms ty0); assumption].
  Qed.
  Theorem equal_means : forall M ty, literals_ok (i_rc M) ->
    (forall x y, numsE not_nan True (typed ty) x -> numsE not_nan True (typed ty) y -> eqE x y = true -> forall rho, evalE M x rho = evalE M y rho) /\
    (forall f g, numsF not_nan True (typed ty) f -> numsF not_nan True (typed ty) g -> eqF f g = true -> forall rho, holds M f rho <-> holds M g rho).
  Proof.
    intros M ty HL. destruct (equal_nm ty hd hv hs htrue hfalse HH (typed ty) True same sameF HS HSF) as [Q1 Q2]. destruct (nm_mean ty M True HL) as [M1 M2]. split; intros x y Hx Hy E rho.
    - apply Q1 in E; auto. rewrite <- (M1 x Hx), <- (M1 y Hy), E. reflexivity.
    - apply Q2 in E; auto. rewrite <- (M2 x Hx), <- (M2 y Hy), E. reflexivity.
  Qed.
End Top.
(** A conjunction or disjunction over the set of some formulas is the one over the formulas. *)
Theorem sets_mean : forall M ty same fs, cells same -> (forall f, In f fs -> numsF not_nan False (typed ty) f) ->
  forall rho, (holds M (FAnd (set_of (lessF same) fs)) rho <-> forall f, In f fs -> holds M f rho) /\ (holds M (FOr (set_of (lessF same) fs)) rho <-> exists f, In f fs /\ holds M f rho).
Proof.
  intros M ty same fs HS HT rho.
  assert (HP : Forall nonanF fs) by (apply Forall_forall; intros f Hf; apply (proj2 (nums_weaken not_nan not_nan False True (typed ty) (fun _ => True) (fun _ x => x) (fun C : False => match C with end) (fun _ _ => I))); auto).
  destruct (set_props nonanF (lessF same) (proj2 (less_strict same HS)) fs HP) as (A1 & A2 & A3 & A4).
  assert (W : forall f g, In f fs -> In g fs -> unordered (lessF same) f g -> (holds M f rho <-> holds M g rho)).
  { intros f g Hf Hg U. apply (un_cmp same HS) in U.
    assert (N : nmF ty f = nmF ty g) by (apply cmp_nms; [| |exact U]; (apply (proj2 (nums_weaken not_nan not_nan False False (typed ty) (fun _ => True) (fun _ x => x) (fun x => x) (fun _ _ => I))); auto)).
    (* literals do not occur: any interpretation of them will do *)
    set (M' := {| i_un := i_un M; i_bin := i_bin M; i_uf := i_uf M; i_rc := fun _ _ => 0%R |}).
    assert (L : literals_ok (i_rc M')) by (intros a b a' b' _ _; reflexivity).
    assert (X : (forall x, numsE not_nan False (typed ty) x -> forall r, evalE M' x r = evalE M x r) /\ (forall h, numsF not_nan False (typed ty) h -> forall r, holds M' h r <-> holds M h r)).
    { clear. apply expr_formula_ind2.
      - reflexivity.
      - intros a b u [[] _].
      - reflexivity.
      - intros c ts IH H r. apply addP in H. destruct H as [_ H]. cbn [evalE]. induction ts as [|[a k] ts IHt]; [reflexivity|]. inversion IH as [|? ? I1 I2]; subst. inversion H as [|? ? [A _] H2]; subst. cbn [fold_right fst snd] in *. rewrite (IHt I2 H2), (I1 A). reflexivity.
      - intros c ts IH H r. apply mulP in H. destruct H as [_ H]. cbn [evalE]. induction ts as [|[a k] ts IHt]; [reflexivity|]. inversion IH as [|? ? [I1 I1'] I2]; subst. inversion H as [|? ? [A B] H2]; subst. cbn [fold_right fst snd] in *. rewrite (IHt I2 H2), (I1 A), (I1' B). reflexivity.
      - intros o a IH H r. cbn [evalE]. rewrite (IH H). reflexivity.
      - intros o a b IHa IHb [H1 H2] r. cbn [evalE]. rewrite (IHa H1), (IHb H2). reflexivity.
      - intros f a b IHf IHa IHb (H1 & H2 & H3) r. change (evalE M' (EIte f a b) r) with (if excluded_middle_informative (holds M' f r) then evalE M' a r else evalE M' b r).
        change (evalE M (EIte f a b) r) with (if excluded_middle_informative (holds M f r) then evalE M a r else evalE M b r). rewrite (IHa H2), (IHb H3). specialize (IHf H1 r).
        destruct (excluded_middle_informative (holds M' f r)), (excluded_middle_informative (holds M f r)); try reflexivity; exfalso; tauto.
      - reflexivity.
      - intros _ r. exact (iff_refl _).
      - intros _ r. exact (iff_refl _).
      - intros v _ r. exact (iff_refl _).
      - intros o a b IHa IHb [H1 H2] r. change (relR o (evalE M' a r) (evalE M' b r) <-> relR o (evalE M a r) (evalE M b r)). rewrite (IHa H1), (IHb H2). exact (iff_refl _).
      - intros gs IH H r. cbn [numsF] in H. apply naryP in H. cbn [holds]. induction gs as [|h gs IHf]; [exact (iff_refl _)|]. inversion IH as [|? ? I1 I2]; subst. inversion H as [|? ? A B]; subst. cbn [fold_right]. rewrite (I1 A r), (IHf I2 B). exact (iff_refl _).
      - intros gs IH H r. cbn [numsF] in H. apply naryP in H. cbn [holds]. induction gs as [|h gs IHf]; [exact (iff_refl _)|]. inversion IH as [|? ? I1 I2]; subst. inversion H as [|? ? A B]; subst. cbn [fold_right]. rewrite (I1 A r), (IHf I2 B). exact (iff_refl _).
      - intros f IH H r. cbn [holds]. rewrite (IH H r). exact (iff_refl _).
      - intros vs f IH [_ H] r. cbn [holds]. split; intros Y r' A B; apply (IH H r'); auto. }
    destruct (nm_mean ty M' False L) as [_ M2]. rewrite <- (proj2 X f (HT f Hf)), <- (proj2 X g (HT g Hg)), <- (M2 f (HT f Hf)), <- (M2 g (HT g Hg)), N. exact (iff_refl _). }
  assert (AND : forall l, holds M (FAnd l) rho <-> forall f, In f l -> holds M f rho).
  { induction l as [|h l IH]; [cbn; split; [intros _ f []|auto]|]. change (holds M h rho /\ holds M (FAnd l) rho <-> forall f, In f (h :: l) -> holds M f rho). rewrite IH. split; [intros [Y Z] f [<-|Hf]; auto|intros Y; split; [apply Y; now left|intros f Hf; apply Y; now right]]. }
  assert (OR : forall l, holds M (FOr l) rho <-> exists f, In f l /\ holds M f rho).
  { induction l as [|h l IH]; [cbn; split; [intros []|intros (f & [] & _)]|]. change (holds M h rho \/ holds M (FOr l) rho <-> exists f, In f (h :: l) /\ holds M f rho). rewrite IH. split; [intros [Y|(f & Hf & Y)]; [exists h; split; [now left|exact Y]|exists f; split; [now right|exact Y]]|intros (f & [<-|Hf] & Y); [now left|right; exists f; auto]]. }
  split.
  - rewrite AND. split; intros H f Hf; [|apply H, A3, Hf]. destruct (A4 f Hf) as (g & Hg & U). apply (W f g Hf (A3 g Hg) U). auto.
  - rewrite OR. split; intros (f & Hf & Y); [exists f; split; [apply A3, Hf|exact Y]|]. destruct (A4 f Hf) as (g & Hg & U). exists g. split; [exact Hg|]. apply (W f g Hf (A3 g Hg) U). exact Y.
Qed.
(** The set as such *)
Theorem sets_built : forall same fs, cells same -> Forall nonanF fs ->
  increasing (lessF same) (set_of (lessF same) fs) /\ (forall f, In f (set_of (lessF same) fs) -> In f fs) /\ (forall f, In f fs -> exists g, In g (set_of (lessF same) fs) /\ unordered (lessF same) f g) /\
  forall gs, Forall nonanF gs -> (forall f, In f fs <-> In f gs) -> Forall2 (unordered (lessF same)) (set_of (lessF same) fs) (set_of (lessF same) gs).
Proof.
  intros same fs HS HP. pose proof (proj2 (less_strict same HS)) as W. destruct (set_props nonanF (lessF same) W fs HP) as (A1 & A2 & A3 & A4). repeat split; auto.
  intros gs Hg E. apply (set_perm nonanF (lessF same) W); assumption.
Qed.
