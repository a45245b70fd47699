(** * Less, EqualTo and sets, from the laws of the three-way comparison *)
From Coq Require Import ZArith NArith Reals Lra Lia List Bool Arith Permutation.
From Flocq Require Import IEEE754.BinarySingleNaN.
From Verif Require Import Dbl DblProofs Syntax Sem SemProofs Order Less SpecOrder OrderProofs.
Import ListNotations.

(** ** Less is the three-way comparison *)
Definition two (c : comparison) : bool * bool := match c with Lt => (true, false) | Eq => (false, false) | Gt => (false, true) end.
Lemma seq_two a b : seq2 (two a) (two b) = two (thenc a b). Proof. destruct a, b; reflexivity. Qed.
Lemma lt_two a b : lt2 a b = two (dcmp a b).
Proof. unfold lt2, dcmp. destruct (dlt a b) eqn:E; [rewrite (dlt_asym _ _ E); reflexivity|]. destruct (dlt b a); reflexivity. Qed.
Lemma nat_two a b : nat2 a b = two (Nat.compare a b).
Proof. unfold nat2. destruct (Nat.compare_spec a b) as [E|E|E]; cbn [two]; f_equal; first [apply Nat.ltb_lt; lia|apply Nat.ltb_ge; lia]. Qed.
Lemma lex_two {A : Type} (l2 : A -> A -> bool * bool) cmp l : Forall (fun x => forall y, l2 x y = two (cmp x y)) l -> forall m, lex2 l2 l m = two (lex cmp l m).
Proof. induction 1 as [|x l E _ IH]; intros [|y m]; try reflexivity. cbn [lex2 lex]. rewrite E, IH. apply seq_two. Qed.
Lemma vlex_two vs ws : lex2 vless2 vs ws = two (lex vcmp vs ws).
Proof. apply lex_two. apply Forall_forall. intros v _ w. apply nat_two. Qed.
Lemma nan_cmp a b : is_nan a = true -> dcmp a b = Eq.
Proof. intros N. unfold dcmp. destruct (dlt a b) eqn:E; [apply dlt_not_nan in E; destruct E; congruence|]. destruct (dlt b a) eqn:E2; [apply dlt_not_nan in E2; destruct E2; congruence|reflexivity]. Qed.
Section L.
  Variable same : expr -> expr -> bool.
  Hypothesis HS : cells same.
  Lemma less_cmp : (forall x y, less2E same x y = two (cmpE x y)) /\ (forall f g, less2F same f g = two (cmpF f g)).
  Proof.
    assert (SC : forall x y r, r = two (cmpE x y) -> (if same x y then (false, false) else r) = two (cmpE x y)).
    { intros x y r H. destruct (same x y) eqn:E; [|exact H]. apply HS in E. subst y. rewrite (proj1 cmp_refl). reflexivity. }
    apply expr_formula_ind2.
    - intros c y. cbn [less2E]. apply SC. destruct y; try apply nat_two. cbn [cmpE]. rewrite nat_two, <- seq_two. f_equal. destruct (is_nan c) eqn:E; [rewrite (nan_cmp _ _ E); reflexivity|apply lt_two].
    - intros a b u y. cbn [less2E]. apply SC. destruct y; try apply nat_two. apply lt_two.
    - intros v y. cbn [less2E]. apply SC. destruct y; apply nat_two.
    - intros c ts IH y. cbn [less2E]. apply SC. destruct y; try apply nat_two. cbn [cmpE]. rewrite lt_two, <- seq_two. f_equal. apply lex_two. eapply Forall_impl; [|exact IH].
      intros [a k] E [b j]. cbn [fst] in E. rewrite E, lt_two. apply seq_two.
    - intros c ts IH y. cbn [less2E]. apply SC. destruct y; try apply nat_two. cbn [cmpE]. rewrite lt_two, <- seq_two. f_equal. apply lex_two. eapply Forall_impl; [|exact IH].
      intros [a k] [E E'] [b j]. cbn [fst snd] in E, E'. rewrite E, E'. apply seq_two.
    - intros o a IH y. cbn [less2E]. apply SC. destruct y; try apply nat_two. cbn [cmpE]. rewrite nat_two, IH. apply seq_two.
    - intros o a b IHa IHb y. cbn [less2E]. apply SC. destruct y; try apply nat_two. cbn [cmpE]. rewrite nat_two, IHa, IHb, !seq_two. reflexivity.
    - intros f a b IHf IHa IHb y. cbn [less2E]. apply SC. destruct y; try apply nat_two. cbn [cmpE]. rewrite IHf, IHa, IHb, !seq_two. reflexivity.
    - intros n vs y. cbn [less2E]. apply SC. destruct y; try apply nat_two. cbn [cmpE]. rewrite nat_two, vlex_two. apply seq_two.
    - intros []; apply nat_two.
    - intros []; apply nat_two.
    - intros v []; apply nat_two.
    - intros o a b IHa IHb []; try apply nat_two. cbn [less2F cmpF]. rewrite nat_two, IHa, IHb, !seq_two. reflexivity.
    - intros fs IH []; try apply nat_two. cbn [less2F cmpF]. now apply lex_two.
    - intros fs IH []; try apply nat_two. cbn [less2F cmpF]. now apply lex_two.
    - intros f IH []; try apply nat_two. apply IH.
    - intros vs f IH []; try apply nat_two. cbn [less2F cmpF]. rewrite vlex_two, IH. apply seq_two.
  Qed.
  Lemma less_iff x y : lessE same x y = true <-> cmpE x y = Lt.
  Proof. unfold lessE. rewrite (proj1 less_cmp). destruct (cmpE x y); cbn; split; congruence. Qed.
  Lemma lessF_iff f g : lessF same f g = true <-> cmpF f g = Lt.
  Proof. unfold lessF. rewrite (proj2 less_cmp). destruct (cmpF f g); cbn; split; congruence. Qed.
End L.
Lemma swo_cmp {A : Type} (P : A -> Prop) (less : A -> A -> bool) (cmp : A -> A -> comparison) :
  (forall x y, less x y = true <-> cmp x y = Lt) -> (forall x, cmp x x = Eq) -> (forall x y, cmp y x = CompOpp (cmp x y)) -> (forall x y z, P x -> P y -> P z -> ok3 (cmp x y) (cmp y z) (cmp x z)) ->
  strict_weak_order P less /\ (forall x y, unordered less x y <-> cmp x y = Eq).
Proof.
  intros HL HR HO HT.
  assert (U : forall x y, unordered less x y <-> cmp x y = Eq).
  { intros x y. unfold unordered. rewrite <- !not_true_iff_false, !HL, (HO x y). destruct (cmp x y); cbn; split; try tauto; try congruence; intros; split; congruence. }
  split; [|exact U]. split; [|split].
  - intros x _. apply not_true_iff_false. rewrite HL, HR. discriminate.
  - intros x y z Px Py Pz L1 L2. rewrite HL in *. destruct (HT x y z Px Py Pz) as (_ & _ & T & _). auto.
  - intros x y z Px Py Pz A1 A2 B1 B2. apply (U x z). assert (E1 : cmp x y = Eq) by (apply U; split; assumption). assert (E2 : cmp y z = Eq) by (apply U; split; assumption).
    destruct (HT x y z Px Py Pz) as (T & _). rewrite (T E1). exact E2.
Qed.
Theorem less_strict : forall same, cells same -> strict_weak_order nonanE (lessE same) /\ strict_weak_order nonanF (lessF same).
Proof.
  intros same HS. split.
  - apply (swo_cmp nonanE (lessE same) cmpE); [apply less_iff, HS|apply cmp_refl|apply cmp_opp|apply cmp_trans].
  - apply (swo_cmp nonanF (lessF same) cmpF); [apply lessF_iff, HS|apply cmp_refl|apply cmp_opp|apply cmp_trans].
Qed.
Lemma un_cmp same : cells same -> (forall x y, unordered (lessE same) x y <-> cmpE x y = Eq) /\ (forall f g, unordered (lessF same) f g <-> cmpF f g = Eq).
Proof.
  intros HS. split.
  - apply (swo_cmp nonanE (lessE same) cmpE); [apply less_iff, HS|apply cmp_refl|apply cmp_opp|apply cmp_trans].
  - apply (swo_cmp nonanF (lessF same) cmpF); [apply lessF_iff, HS|apply cmp_refl|apply cmp_opp|apply cmp_trans].
Qed.

(** ** Sets *)
Section Sets.
  Context {A : Type} (P : A -> Prop) (less : A -> A -> bool).
  Hypothesis W : strict_weak_order P less.
  Lemma ins_in k s x : In x (set_insert less k s) -> x = k \/ In x s.
  Proof. induction s as [|y s IH]; cbn [set_insert In]; [intros [->|[]]; auto|]. destruct (less k y); [intros [->|[->|H]]; cbn; auto|]. destruct (less y k); cbn [In]; [intros [->|H]; auto; destruct (IH H); auto|auto]. Qed.
  Lemma ins_keeps k s x : In x s -> In x (set_insert less k s).
  Proof. induction s as [|y s IH]; cbn [set_insert In]; [intros []|]. intros H. destruct (less k y); [right; exact H|]. destruct (less y k); cbn [In]; [destruct H; auto|exact H]. Qed.
  Lemma ins_has k s : P k -> Forall P s -> exists x, In x (set_insert less k s) /\ unordered less k x.
  Proof.
    intros Pk. induction 1 as [|y s Py _ IH]; cbn [set_insert]; [exists k; split; [now left|split; apply (proj1 W), Pk]|].
    destruct (less k y) eqn:E1; [exists k; split; [now left|split; apply (proj1 W), Pk]|]. destruct (less y k) eqn:E2.
    - destruct IH as (x & Hx & U). exists x. split; [now right|exact U].
    - exists y. split; [now left|split; assumption].
  Qed.
  Lemma ins_P k s : P k -> Forall P s -> Forall P (set_insert less k s).
  Proof. intros Pk Ps. apply Forall_forall. intros x H. apply ins_in in H. destruct H as [->|H]; [exact Pk|]. rewrite Forall_forall in Ps. auto. Qed.
  Lemma ins_inc k s : P k -> Forall P s -> increasing less s -> increasing less (set_insert less k s).
  Proof.
    intros Pk Ps I. induction I as [|y s Hy I IH]; cbn [set_insert]; [constructor; constructor|]. inversion Ps as [|? ? Py Ps']; subst.
    destruct (less k y) eqn:E1.
    - constructor; [constructor; [exact E1|]|constructor; assumption]. apply Forall_forall. intros z Hz. rewrite Forall_forall in Hy, Ps'. apply (proj1 (proj2 W)) with y; auto.
    - destruct (less y k) eqn:E2; [|constructor; assumption]. constructor; [|apply IH; exact Ps']. apply Forall_forall. intros z Hz. apply ins_in in Hz. destruct Hz as [->|Hz]; [exact E2|]. rewrite Forall_forall in Hy. auto.
  Qed.
  Lemma fold_set ks : Forall P ks -> forall s, Forall P s -> increasing less s ->
    let r := fold_left (fun s k => set_insert less k s) ks s in
    Forall P r /\ increasing less r /\ (forall x, In x r -> In x ks \/ In x s) /\ (forall x, In x s -> In x r) /\ (forall k, In k ks -> exists x, In x r /\ unordered less k x).
  Proof.
    induction 1 as [|k ks Pk Pks IH]; intros s Ps I; cbn [fold_left]; cbn zeta.
    - repeat split; auto. intros k [].
    - destruct (IH _ (ins_P k s Pk Ps) (ins_inc k s Pk Ps I)) as (H1 & H2 & H3 & H4 & H5). repeat split; auto.
      + intros x Hx. destruct (H3 x Hx) as [H|H]; [left; now right|]. apply ins_in in H. destruct H as [->|H]; [left; now left|now right].
      + intros x Hx. apply H4, ins_keeps, Hx.
      + intros x [<-|Hx]; [|auto]. destruct (ins_has k s Pk Ps) as (y & Hy & U). exists y. auto.
  Qed.
  Lemma set_props ks : Forall P ks -> Forall P (set_of less ks) /\ increasing less (set_of less ks) /\ (forall x, In x (set_of less ks) -> In x ks) /\ (forall k, In k ks -> exists x, In x (set_of less ks) /\ unordered less k x).
  Proof. intros H. destruct (fold_set ks H [] (Forall_nil _) (FOP_nil _)) as (H1 & H2 & H3 & _ & H5). repeat split; auto. intros x Hx. destruct (H3 x Hx) as [?|[]]; auto. Qed.
  Lemma un_sym x y : unordered less x y -> unordered less y x. Proof. intros [? ?]; split; assumption. Qed.
  Lemma un_trans x y z : P x -> P y -> P z -> unordered less x y -> unordered less y z -> unordered less x z.
  Proof. intros Px Py Pz [U1 U2] [U3 U4]. apply (proj2 (proj2 W) x y z); assumption. Qed.
  Lemma less_asym x y : P x -> P y -> less x y = true -> less y x = false.
  Proof. intros Px Py H. destruct (less y x) eqn:E; [|reflexivity]. pose proof (proj1 (proj2 W) x y x Px Py Px H E) as C. rewrite (proj1 W x Px) in C. discriminate. Qed.
  Lemma less_un_l x y z : P x -> P y -> P z -> unordered less x y -> less y z = true -> less x z = true.
  Proof.
    intros Px Py Pz U L. destruct (less x z) eqn:E; [reflexivity|]. exfalso. destruct (less z x) eqn:E2.
    - pose proof (proj1 (proj2 W) y z x Py Pz Px L E2) as C. destruct U as [_ U]. congruence.
    - destruct (un_trans y x z Py Px Pz (un_sym _ _ U) (conj E E2)) as [C _]. congruence.
  Qed.
  Lemma less_un_r x y z : P x -> P y -> P z -> less x y = true -> unordered less y z -> less x z = true.
  Proof.
    intros Px Py Pz L U. destruct (less x z) eqn:E; [reflexivity|]. exfalso. destruct (less z x) eqn:E2.
    - pose proof (proj1 (proj2 W) z x y Pz Px Py E2 L) as C. destruct U as [_ U]. congruence.
    - destruct (un_trans x z y Px Pz Py (conj E E2) (un_sym _ _ U)) as [C _]. congruence.
  Qed.
  (** Increasing lists with the same elements up to order agree position by position. *)
  Lemma inc_same s : Forall P s -> increasing less s -> forall t, Forall P t -> increasing less t -> (forall x, In x s -> exists y, In y t /\ unordered less x y) -> (forall y, In y t -> exists x, In x s /\ unordered less y x) ->
    Forall2 (unordered less) s t.
  Proof.
    intros Ps I. induction I as [|x s Hx I IH]; intros t Pt J H1 H2.
    - destruct t as [|y t]; [constructor|]. destruct (H2 y (or_introl eq_refl)) as (x & [] & _).
    - inversion Ps as [|? ? Px Ps']; subst. destruct J as [|y t Hy J]; [destruct (H1 x (or_introl eq_refl)) as (y & [] & _)|]. inversion Pt as [|? ? Py Pt']; subst. rewrite Forall_forall in *.
      assert (U : unordered less x y).
      { destruct (H1 x (or_introl eq_refl)) as (y' & [<-|Hy'] & U1); [exact U1|]. destruct (H2 y (or_introl eq_refl)) as (x' & [<-|Hx'] & U2); [apply un_sym, U2|]. exfalso.
        (* x ~ y', y < y'; y ~ x', x < x' *)
        pose proof (Hy y' Hy') as L1. pose proof (Hx x' Hx') as L2. pose proof (less_un_r y y' x Py (Pt' _ Hy') Px L1 (un_sym _ _ U1)) as L3. pose proof (less_un_r x x' y Px (Ps' _ Hx') Py L2 (un_sym _ _ U2)) as L4.
        rewrite (less_asym x y Px Py L4) in L3. discriminate. }
      constructor; [exact U|]. apply IH; auto.
      + apply Forall_forall. exact Pt'.
      + intros a Ha. destruct (H1 a (or_intror Ha)) as (b & [<-|Hb] & Ub); [|exists b; auto]. exfalso. pose proof (Hx a Ha) as L. destruct (un_trans a y x (Ps' _ Ha) Py Px Ub (un_sym _ _ U)) as [_ C]. congruence.
      + intros b Hb. destruct (H2 b (or_intror Hb)) as (a & [<-|Ha] & Ub); [|exists a; auto]. exfalso. pose proof (Hy b Hb) as L. destruct (un_trans b x y (Pt' _ Hb) Px Py Ub U) as [_ C]. congruence.
  Qed.
  Lemma set_perm ks ls : Forall P ks -> Forall P ls -> (forall x, In x ks <-> In x ls) -> Forall2 (unordered less) (set_of less ks) (set_of less ls).
  Proof.
    intros Pk Pl E. destruct (set_props ks Pk) as (A1 & A2 & A3 & A4), (set_props ls Pl) as (B1 & B2 & B3 & B4). apply inc_same; auto.
    - intros x Hx. apply B4, E, A3, Hx.
    - intros y Hy. apply A4, E, B3, Hy.
  Qed.
End Sets.
