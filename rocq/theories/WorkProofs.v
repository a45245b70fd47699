From Coq Require Import ZArith Reals Lra Lia List Bool Arith.
From Flocq Require Import Core.Core IEEE754.BinarySingleNaN.
From Verif Require Import Dbl DblProofs Syntax Sem Interval IntervalProofs MathConv MathConvProofs IEval Contr ContrProofs ExplainProofs ForallProofs IcpProofs SpecWork.
Import ListNotations.
Local Notation R := Rdefinitions.R.

Lemma same_refl i : same_set i i. Proof. intros x. apply iff_refl. Qed.
Lemma same_sym i j : same_set i j -> same_set j i. Proof. intros H x. apply iff_sym, H. Qed.
Lemma same_trans i j k : same_set i j -> same_set j k -> same_set i k. Proof. intros H G x. exact (iff_trans (H x) (G x)). Qed.
Lemma i_eqb_same i j : i_eqb i j = true -> same_set i j.
Proof. intros E x. split; [exact (i_eqb_mem _ _ x E)|exact (i_eqb_mem_r _ _ x E)]. Qed.

(** ** The integer contractor *)
(** the points between two integers of the interval *)
Definition hull_int (i : ival) (x : R) : Prop := exists a b : Z, imem (IZR a) i /\ imem (IZR b) i /\ (IZR a <= x <= IZR b)%R.
Lemma imem_convex i x y z : imem x i -> imem y i -> (x <= z <= y)%R -> imem z i.
Proof.
  destruct i as [|l u]; cbn [imem]; [tauto|]. intros [A1 A2] [B1 B2] [H1 H2].
  split; [destruct (d2e l); cbn [ext_le] in *; auto; lra|destruct (d2e u); cbn [ext_le] in *; auto; lra].
Qed.
Lemma hull_in i x : hull_int i x -> imem x i.
Proof. intros (a & b & A & B & H). exact (imem_convex _ _ _ _ A B H). Qed.
Lemma hull_same i j x : same_set i j -> hull_int i x -> hull_int j x.
Proof. intros E (a & b & A & B & H). exists a, b. split; [apply E; exact A|]. split; [apply E; exact B|exact H]. Qed.
Lemma ceil_least l x : is_nan l = false -> ext_le (d2e (dceil l)) (Fin x) -> d2e l <> PInf -> exists a : Z, ext_le (d2e l) (Fin (IZR a)) /\ (IZR a <= x)%R.
Proof.
  intros N H P. destruct (is_finite l) eqn:F.
  - exists (Zceil (B2R l)). rewrite (finite_d2e _ F). rewrite finite_d2e in H by (rewrite dceil_fin; exact F). rewrite dceil_R in H. cbn [ext_le] in *. split; [apply Zceil_ub|exact H].
  - destruct l as [|[]| |]; try discriminate.
    + exists (Zfloor x). cbn. split; [exact Logic.I|apply Zfloor_lb].
    + destruct (P eq_refl).
Qed.
Lemma floor_most u x : is_nan u = false -> ext_le (Fin x) (d2e (dfloor u)) -> d2e u <> NInf -> exists b : Z, ext_le (Fin (IZR b)) (d2e u) /\ (x <= IZR b)%R.
Proof.
  intros N H P. destruct (is_finite u) eqn:F.
  - exists (Zfloor (B2R u)). rewrite (finite_d2e _ F). rewrite finite_d2e in H by (rewrite dfloor_fin; exact F). rewrite dfloor_R in H. cbn [ext_le] in *. split; [apply Zfloor_lb|exact H].
  - destruct u as [|[]| |]; try discriminate.
    + destruct (P eq_refl).
    + exists (Zceil x). cbn. split; [exact Logic.I|apply Zceil_ub].
Qed.
Lemma iok_ends l u : i_ok (IV l u) -> is_nan l = false /\ is_nan u = false /\ d2e l <> PInf /\ d2e u <> NInf.
Proof.
  intros (H1 & H2 & H3). split; [destruct l; auto; destruct u as [|[]| |]; discriminate|]. split; [destruct u as [| | |]; auto; destruct l as [|[]| |]; discriminate|].
  split; [destruct l as [|[]| |]; cbn; try discriminate; intros X; try discriminate X|destruct u as [|[]| |]; cbn; try discriminate; intros X; try discriminate X]; cbn in *; try discriminate.
Qed.
Lemma round_hull l u x : i_ok (IV l u) -> dle (dceil l) (dfloor u) = true -> imem x (mk_ival (dceil l) (dfloor u)) <-> hull_int (IV l u) x.
Proof.
  intros K E. destruct (iok_ends _ _ K) as (Nl & Nu & Pl & Pu). split.
  - intros H. pose proof (int_round_sub l u x K H) as Hx. unfold mk_ival in H.
    assert (imem x (IV (dceil l) (dfloor u))) as [A B].
    { destruct (dle _ _ && _ && _) in H; [exact H|destruct H]. }
    destruct (ceil_least l x Nl A Pl) as (a & A1 & A2). destruct (floor_most u x Nu B Pu) as (b & B1 & B2).
    exists a, b. cbn [imem] in Hx. split; [split; [exact A1|destruct (d2e u); cbn [ext_le] in *; auto; try tauto; lra]|]. split; [split; [destruct (d2e l); cbn [ext_le] in *; auto; try tauto; lra|exact B1]|lra].
  - intros (a & b & A & B & H). destruct (int_round_mem l u a K A) as [_ A']. destruct (int_round_mem l u b K B) as [_ B']. exact (imem_convex _ _ _ _ A' B' H).
Qed.

Lemma round_nonempty l u : i_ok (IV l u) -> dle (dceil l) (dfloor u) = true -> i_empty (mk_ival (dceil l) (dfloor u)) = false.
Proof.
  intros K E. destruct (iok_ends _ _ K) as (Nl & Nu & Pl & Pu). unfold mk_ival. rewrite E.
  destruct (deq (dceil l) dpinf) eqn:E1; [|destruct (deq (dfloor u) dninf) eqn:E2; [|reflexivity]]; exfalso.
  - destruct (is_finite l) eqn:Fl; [pose proof (dceil_fin l) as X; rewrite Fl in X; destruct (dceil l) as [|[]| |]; discriminate|]. destruct l as [|[]| |]; try discriminate. exact (Pl eq_refl).
  - destruct (is_finite u) eqn:Fu; [pose proof (dfloor_fin u) as X; rewrite Fu in X; destruct (dfloor u) as [|[]| |]; discriminate|]. destruct u as [|[]| |]; try discriminate. exact (Pu eq_refl).
Qed.
Lemma same_hull l u : i_ok (IV l u) -> is_integer l = true -> is_integer u = true -> forall x, imem x (IV l u) -> hull_int (IV l u) x.
Proof.
  intros K A B x H. apply is_integer_spec in A. apply is_integer_spec in B. destruct A as (Fl & a & _ & Ea). destruct B as (Fu & b & _ & Eb).
  cbn [imem] in H. rewrite (finite_d2e _ Fl), (finite_d2e _ Fu), Ea, Eb in H. destruct H as [H1 H2]. cbn [ext_le] in H1, H2.
  exists a, b. cbn [imem]. rewrite (finite_d2e _ Fl), (finite_d2e _ Fu), Ea, Eb. cbn [ext_le]. lra.
Qed.
Lemma b_get_set b i j x : i <> j -> b_get (b_set b i x) j = b_get b j.
Proof. intros N. unfold b_get, b_set. cbn [bvals]. apply nth_upd_nth_ne. exact N. Qed.
Lemma b_get_set_eq b i x : i < length (bvals b) -> b_get (b_set b i x) i = x.
Proof. intros N. unfold b_get, b_set. cbn [bvals]. apply nth_upd_nth_eq. exact N. Qed.
Lemma get_iv_lt b i l u : b_get b i = IV l u -> i < length (bvals b).
Proof. intros E. destruct (Nat.lt_ge_cases i (length (bvals b))) as [H|H]; [exact H|]. unfold b_get in E. rewrite nth_overflow in E by exact H. discriminate. Qed.
Lemma get_empty_set b i : b_get (b_set_empty b) i = IEmpty.
Proof. unfold b_get, b_set_empty. cbn [bvals]. exact (map_nth (fun _ => IEmpty) (bvals b) IEmpty i). Qed.

(** what rounding leaves is inside the hull of the integers, and everything only shrinks *)
Lemma int_sub idx : forall s i x, box_ok (cs_box s) -> imem x (b_get (cs_box (prune_int idx s)) i) -> imem x (b_get (cs_box s) i).
Proof.
  induction idx as [|k idx IH]; intros s i x K H; cbn [prune_int] in H; [exact H|].
  destruct (b_get (cs_box s) k) as [|l u] eqn:Eg; [exact (IH s i x K H)|].
  assert (Kg : i_ok (IV l u)) by (rewrite <- Eg; apply box_ok_get; exact K).
  destruct (negb (is_integer l) || negb (is_integer u)); [|exact (IH s i x K H)].
  destruct (dle (dceil l) (dfloor u)) eqn:El.
  - apply IH in H; [|cbn; apply b_set_ok; [exact K|apply mk_ival_ok]]. cbn [cs_box cs_with_out cs_with_box] in H. destruct (Nat.eq_dec k i) as [<-|N].
    + rewrite b_get_set_eq in H by exact (get_iv_lt _ _ _ _ Eg). rewrite Eg. exact (int_round_sub l u x Kg H).
    + rewrite b_get_set in H by exact N. exact H.
  - exfalso. destruct (nth_error _ k) in H; cbn [cs_box cs_with_out cs_with_box add_witness] in H; rewrite get_empty_set in H; exact H.
Qed.
Lemma int_in_hull idx : forall s i x, box_ok (cs_box s) -> In i idx -> imem x (b_get (cs_box (prune_int idx s)) i) -> hull_int (b_get (cs_box s) i) x.
Proof.
  induction idx as [|k idx IH]; intros s i x K Hi H; cbn [prune_int] in H; [destruct Hi|].
  destruct (b_get (cs_box s) k) as [|l u] eqn:Eg.
  { destruct Hi as [->|Hi]; [|exact (IH s i x K Hi H)]. apply int_sub in H; [|exact K]. rewrite Eg in H. destruct H. }
  assert (Kg : i_ok (IV l u)) by (rewrite <- Eg; apply box_ok_get; exact K).
  destruct (negb (is_integer l) || negb (is_integer u)) eqn:Ei.
  - destruct (dle (dceil l) (dfloor u)) eqn:El.
    + assert (K1 : box_ok (b_set (cs_box s) k (mk_ival (dceil l) (dfloor u)))) by (apply b_set_ok; [exact K|apply mk_ival_ok]).
      destruct (Nat.eq_dec k i) as [<-|N].
      * apply int_sub in H; [|exact K1]. cbn [cs_box cs_with_out cs_with_box] in H. rewrite b_get_set_eq in H by exact (get_iv_lt _ _ _ _ Eg). rewrite Eg. apply (round_hull l u x Kg El). exact H.
      * destruct Hi as [->|Hi]; [congruence|]. apply IH in H; [|exact K1|exact Hi]. cbn [cs_box cs_with_out cs_with_box] in H. rewrite b_get_set in H by exact N. exact H.
    + exfalso. destruct (nth_error _ k) in H; cbn [cs_box cs_with_out cs_with_box add_witness] in H; rewrite get_empty_set in H; exact H.
  - apply orb_false_iff in Ei. destruct Ei as [E1 E2]. apply negb_false_iff in E1. apply negb_false_iff in E2.
    destruct (Nat.eq_dec k i) as [<-|N].
    + apply int_sub in H; [|exact K]. rewrite Eg in *. exact (same_hull l u Kg E1 E2 x H).
    + destruct Hi as [->|Hi]; [congruence|]. exact (IH s i x K Hi H).
Qed.
Lemma int_rest idx : forall s, box_ok (cs_box s) -> b_full (cs_box s) ->
  (forall i x, In i idx -> imem x (b_get (cs_box s) i) -> hull_int (b_get (cs_box s) i) x) ->
  forall i, same_set (b_get (cs_box (prune_int idx s)) i) (b_get (cs_box s) i).
Proof.
  induction idx as [|k idx IH]; intros s K F H i; cbn [prune_int]; [apply same_refl|].
  assert (H' : forall i x, In i idx -> imem x (b_get (cs_box s) i) -> hull_int (b_get (cs_box s) i) x) by (intros j x Hj; apply H; right; exact Hj).
  destruct (b_get (cs_box s) k) as [|l u] eqn:Eg; [exact (IH s K F H' i)|].
  assert (Kg : i_ok (IV l u)) by (rewrite <- Eg; apply box_ok_get; exact K).
  destruct (negb (is_integer l) || negb (is_integer u)) eqn:Ei; [|exact (IH s K F H' i)].
  assert (Hh : forall x, imem x (IV l u) -> hull_int (IV l u) x) by (intros x; rewrite <- Eg; apply (H k x (or_introl eq_refl))).
  assert (P : exists x, imem x (IV l u)) by exact (i_ok_member _ Kg eq_refl). destruct P as [x0 P]. destruct (Hh x0 P) as (a & b & A & B & _).
  destruct (int_round_mem l u a Kg A) as [El A']. rewrite El.
  set (s1 := cs_with_out _ _).
  assert (S1 : forall j, same_set (b_get (cs_box s1) j) (b_get (cs_box s) j)).
  { intros j. unfold s1. cbn [cs_box cs_with_out cs_with_box]. destruct (Nat.eq_dec k j) as [<-|N]; [|rewrite b_get_set by exact N; apply same_refl].
    rewrite b_get_set_eq by exact (get_iv_lt _ _ _ _ Eg). rewrite Eg. intros x. split; [apply (int_round_sub l u x Kg)|].
    intros Hx. apply (round_hull l u x Kg El). apply Hh. exact Hx. }
  apply same_trans with (b_get (cs_box s1) i); [|apply S1]. apply IH.
  - cbn. apply b_set_ok; [exact K|apply mk_ival_ok].
  - apply Forall_forall. intros y Hy. apply In_nth with (d := IEmpty) in Hy. destruct Hy as (j & Hj & <-).
    change (nth j (bvals (cs_box s1)) IEmpty) with (b_get (cs_box s1) j).
    assert (Fj : i_empty (b_get (cs_box s) j) = false). { unfold b_full in F. rewrite Forall_forall in F. apply F. apply nth_In. cbn in Hj. rewrite upd_nth_length in Hj. exact Hj. }
    destruct (b_get (cs_box s) j) as [|l' u'] eqn:E'; [discriminate|].
    destruct (i_ok_member (IV l' u')) as [y Hy]; [rewrite <- E'; apply box_ok_get; exact K|reflexivity|]. rewrite <- E' in Hy. apply (S1 j) in Hy. destruct (b_get (cs_box s1) j); [destruct Hy|reflexivity].
  - intros j x Hj Hx. apply (hull_same (b_get (cs_box s) j)); [apply same_sym, S1|]. apply H'; [exact Hj|]. apply S1. exact Hx.
Qed.

(** ** One contractor *)
Section One.
  Variables (M : interp) (D : pdom) (Orc : oracles) (term : list ival -> list ival -> bool).
  Lemma int_local idx b b' : box_ok b -> box_ok b' -> b_full b' ->
    (forall i, In i idx -> same_set (b_get b i) (b_get b' i)) -> at_rest Orc term (CInteger idx) b -> at_rest Orc term (CInteger idx) b'.
  Proof.
    intros K K' F' E R n s s' Eb Ep. destruct n as [|n]; [discriminate|]. cbn [prune] in Ep. assert (X : s' = prune_int idx s) by congruence. subst s'.
    intros i. rewrite <- Eb. apply int_rest; rewrite Eb; auto.
    intros j x Hj Hx. apply (hull_same (b_get b j)); [exact (E j Hj)|]. apply (E j Hj) in Hx.
    specialize (R 1%nat (cs_with_box s b) _ eq_refl eq_refl j). apply R in Hx. exact (int_in_hull idx (cs_with_box s b) j x K Hj Hx).
  Qed.

  Lemma fold_set l : forall o i, fold_left bits_set l o i = false -> o i = false /\ ~ In i l.
  Proof.
    induction l as [|k l IH]; intros o i H; cbn [fold_left] in H; [split; [exact H|intros []]|].
    apply IH in H. destruct H as [H1 H2]. unfold bits_set in H1. destruct (Nat.eqb i k) eqn:E.
    - exfalso. revert H1. rewrite ?E. try (rewrite Nat.eqb_sym in E; rewrite E). discriminate.
    - split; [revert H1; rewrite ?E; try (rewrite Nat.eqb_sym in E; rewrite E); auto|]. intros [->|C]; [rewrite Nat.eqb_refl in E; discriminate|exact (H2 C)].
  Qed.
  Lemma changed_not sel old new n i : ~ In i (changed_bits sel old new n) -> i < n -> sel i = true -> same_set (nth i old IEmpty) (nth i new IEmpty).
  Proof.
    intros H L S0. apply i_eqb_same. destruct (i_eqb (nth i old IEmpty) (nth i new IEmpty)) eqn:E; [reflexivity|]. exfalso. apply H. apply filter_In. split; [apply in_seq; lia|].
    rewrite S0, E. reflexivity.
  Qed.

  (** what the bookkeeping of one run has to say *)
  Definition reports (c : contractor) (s s' : cstat) : Prop :=
    box_ok (cs_box s') /\ bvars (cs_box s') = bvars (cs_box s) /\ b_full (cs_box s') /\
    forall i, same_set (b_get (cs_box s') i) (b_get (cs_box s) i) \/ (i < b_size (cs_box s) /\ cs_out s' i = true /\ c_input (bvars (cs_box s)) c i = true).
  Lemma step_full fs b iv : box_ok b -> b_full b -> step_ok M D fs b iv -> b_empty (mkBox (bvars b) iv) = false ->
    length iv = length (bvals b) /\ Forall (fun i => i_empty i = false) iv /\
    forall i v, nth_error (bvars b) i = Some v -> (forall f, In f fs -> ~ In v (fvF f)) -> nth i iv IEmpty = b_get b i.
  Proof.
    intros K F (L & _ & _ & _ & S5) E. split; [exact L|]. destruct (S5 F) as [A|A]; [|exact A]. exfalso.
    destruct iv as [|x iv]; [discriminate E|]. inversion A; subst; discriminate E.
  Qed.
  Lemma box_len b : box_ok b -> bvars b <> [] -> length (bvals b) = b_size b.
  Proof. intros (_ & K & _) N. rewrite K. unfold b_size. destruct (bvars b); [congruence|]. cbn [length]. lia. Qed.
  Lemma uses_not vars f i v : nth_error vars i = Some v -> uses vars f i = false -> ~ In v (fvF f).
  Proof. unfold uses. intros -> E H. apply mem_var_In in H. congruence. Qed.
  (** the part common to the three kinds of constraint contractors *)
  Lemma from_step (c : contractor) fs (s s' : cstat) iv : box_ok (cs_box s) -> b_full (cs_box s) -> bvars (cs_box s) <> [] ->
    step_ok M D fs (cs_box s) iv -> cs_box s' = mkBox (bvars (cs_box s)) iv -> b_empty (cs_box s') = false ->
    (forall i, existsb (fun f => uses (bvars (cs_box s)) f i) fs = c_input (bvars (cs_box s)) c i) ->
    (forall i, i < b_size (cs_box s) -> c_input (bvars (cs_box s)) c i = true -> cs_out s' i = false -> same_set (nth i (bvals (cs_box s)) IEmpty) (nth i iv IEmpty)) ->
    reports c s s'.
  Proof.
    intros K F N S0 Eb E Hin Ho. rewrite Eb in E. destruct (step_full fs _ iv K F S0 E) as (L & F' & Hk). pose proof (box_len _ K N) as Lb.
    unfold reports. rewrite Eb. cbn [bvars bvals]. split; [|split; [reflexivity|split; [exact F'|]]].
    - destruct S0 as (_ & S2 & _). destruct K as (K1 & K2 & _). split; [exact K1|]. split; [cbn [bvals bvars]; rewrite L; exact K2|exact S2].
    - intros i. unfold b_get. cbn [bvals]. destruct (Nat.lt_ge_cases i (b_size (cs_box s))) as [Hi|Hi].
      2: { left. rewrite !nth_overflow by lia. apply same_refl. }
      destruct (c_input (bvars (cs_box s)) c i) eqn:Ec.
      + destruct (cs_out s' i) eqn:Eo; [right; auto|]. left. apply same_sym. exact (Ho i Hi Ec Eo).
      + left. rewrite <- Hin in Ec. destruct (nth_error (bvars (cs_box s)) i) as [v|] eqn:Ev.
        2: { apply nth_error_None in Ev. unfold b_size in Hi. lia. }
        rewrite (Hk i v Ev); [apply same_refl|]. intros f Hf. apply (uses_not _ f i v Ev).
        destruct (uses (bvars (cs_box s)) f i) eqn:Eu; [|reflexivity]. assert (existsb (fun f => uses (bvars (cs_box s)) f i) fs = true) by (apply existsb_exists; exists f; auto). congruence.
  Qed.
  Lemma int_reports idx : forall s, box_ok (cs_box s) -> b_full (cs_box s) -> (forall i, In i idx -> i < b_size (cs_box s)) ->
    b_empty (cs_box (prune_int idx s)) = false -> 
    box_ok (cs_box (prune_int idx s)) /\ bvars (cs_box (prune_int idx s)) = bvars (cs_box s) /\ b_full (cs_box (prune_int idx s)) /\
    (forall i, cs_out s i = true -> cs_out (prune_int idx s) i = true) /\
    forall i, b_get (cs_box (prune_int idx s)) i = b_get (cs_box s) i \/ (In i idx /\ cs_out (prune_int idx s) i = true).
  Proof.
    induction idx as [|k idx IH]; intros s K F Hi; cbn [prune_int]; [tauto|]. intros E.
    assert (Hi' : forall i, In i idx -> i < b_size (cs_box s)) by (intros j Hj; apply Hi; right; exact Hj).
    assert (Skip : b_empty (cs_box (prune_int idx s)) = false -> box_ok (cs_box (prune_int idx s)) /\ bvars (cs_box (prune_int idx s)) = bvars (cs_box s) /\ b_full (cs_box (prune_int idx s)) /\
      (forall i, cs_out s i = true -> cs_out (prune_int idx s) i = true) /\
      forall i, b_get (cs_box (prune_int idx s)) i = b_get (cs_box s) i \/ (In i (k :: idx) /\ cs_out (prune_int idx s) i = true)).
    { intros E0. destruct (IH s K F Hi' E0) as (A & B & C & C2 & Hk). repeat (split; [assumption|]). intros i. destruct (Hk i) as [X|[X Y]]; [left; exact X|right; split; [right; exact X|exact Y]]. }
    destruct (b_get (cs_box s) k) as [|l u] eqn:Eg; [exact (Skip E)|].
    assert (Kg : i_ok (IV l u)) by (rewrite <- Eg; apply box_ok_get; exact K).
    destruct (negb (is_integer l) || negb (is_integer u)) eqn:Ei; [|exact (Skip E)]. clear Skip.
    destruct (dle (dceil l) (dfloor u)) eqn:El.
    2: { exfalso. unfold b_empty in E. destruct (nth_error _ k) in E; cbn [cs_box cs_with_out cs_with_box add_witness] in E; change (i_empty (b_get (b_set_empty (cs_box s)) 0) = false) in E; rewrite get_empty_set in E; discriminate E. }
    set (s1 := cs_with_out _ _) in *.
    assert (K1 : box_ok (cs_box s1)) by (apply b_set_ok; [exact K|apply mk_ival_ok]).
    assert (F1 : b_full (cs_box s1)).
    { apply Forall_forall. intros y Hy. apply In_nth with (d := IEmpty) in Hy. destruct Hy as (j & Hj & <-).
      change (nth j (bvals (cs_box s1)) IEmpty) with (b_get (cs_box s1) j). unfold s1 in *. cbn [cs_box cs_with_out cs_with_box] in *.
      assert (Hj' : j < length (bvals (cs_box s))) by (cbn in Hj; rewrite upd_nth_length in Hj; exact Hj).
      destruct (Nat.eq_dec k j) as [<-|Nj].
      - rewrite b_get_set_eq by exact Hj'. exact (round_nonempty l u Kg El).
      - rewrite b_get_set by exact Nj. unfold b_full in F. rewrite Forall_forall in F. apply F. apply nth_In. exact Hj'. }
    destruct (IH s1 K1 F1 Hi' E) as (A & B & C & C2 & Hk). split; [exact A|]. split; [exact B|]. split; [exact C|]. split.
    - intros i Ho. apply C2. unfold s1. cbn. unfold bits_set. rewrite Ho. apply orb_true_r.
    - intros i. destruct (Hk i) as [X|[X Y]]; [|right; split; [right; exact X|exact Y]].
      destruct (Nat.eq_dec k i) as [<-|Nk].
      + right. split; [left; reflexivity|]. apply C2. unfold s1. cbn. unfold bits_set. rewrite Nat.eqb_refl. reflexivity.
      + left. rewrite X. unfold s1. cbn [cs_box cs_with_out cs_with_box]. apply b_get_set. exact Nk.
  Qed.
  Lemma single_reports c n s s' : box_ok (cs_box s) -> b_full (cs_box s) -> bvars (cs_box s) <> [] -> c_ok M D Orc (bvars (cs_box s)) c -> single c ->
    prune Orc term n c s = Some s' -> b_empty (cs_box s') = false -> reports c s s'.
  Proof.
    intros K F N Hc Hs Ep E. destruct n as [|n]; [discriminate|]. destruct c as [|idx|cs|f|fs|f|cs|cs|cs]; try destruct Hs; cbn [prune c_ok] in *.
    - assert (X : s' = prune_int idx s) by congruence. subst s'.
      assert (Hi : forall i, In i idx -> i < b_size (cs_box s)). { intros i Hi. destruct (Hc i Hi) as (v & Hv & _). apply nth_error_Some. congruence. }
      destruct (int_reports idx s K F Hi E) as (A & B & C & C2 & Hk). split; [exact A|]. split; [exact B|]. split; [exact C|].
      intros i. destruct (Hk i) as [X|[X Y]]; [left; rewrite X; apply same_refl|]. right. split; [exact (Hi i X)|]. split; [exact Y|].
      cbn [c_input]. apply existsb_exists. exists i. split; [exact X|apply Nat.eqb_refl].
    - assert (X : s' = prune_fwd Orc f s) by congruence. subst s'. destruct Hc as [Hc _]. destruct (Hc (cs_box s) K eq_refl) as [Hk Hin].
      unfold prune_fwd in *. destruct (o_bwd Orc f (cs_box s)) as [inner iv] eqn:Eo. cbn [fst snd] in *.
      apply (from_step (CFwd f) [f] s _ iv K F N Hk).
      + destruct inner; [reflexivity|]. destruct (b_empty (mkBox (bvars (cs_box s)) iv)); [apply add_used_box|]. destruct (changed_bits _ _ _ _); [reflexivity|apply add_used_box].
      + exact E.
      + intros i. cbn [existsb c_input]. apply orb_false_r.
      + intros i Hi Hu. destruct inner; [intros _; rewrite (Hin eq_refl); apply same_refl|].
        destruct (b_empty (mkBox (bvars (cs_box s)) iv)) eqn:E'; [rewrite add_used_box in E; cbn [cs_box cs_with_box cs_with_out] in E; congruence|].
        destruct (changed_bits (uses (bvars (cs_box s)) f) (bvals (cs_box s)) iv (b_size (cs_box s))) as [|k l] eqn:Ec.
        * intros _. apply (changed_not (uses (bvars (cs_box s)) f) _ _ (b_size (cs_box s)) i); [rewrite Ec; intros []|exact Hi|exact Hu].
        * rewrite add_used_out. intros Ho. apply (changed_not (uses (bvars (cs_box s)) f) _ _ (b_size (cs_box s)) i); [|exact Hi|exact Hu]. rewrite Ec.
          apply (fold_set _ _ _ Ho).
    - assert (X : s' = prune_poly Orc fs s) by congruence. subst s'. destruct Hc as [Hc _]. pose proof (Hc (cs_box s) K eq_refl) as Hk. pose proof (box_len _ K N) as Lb.
      unfold prune_poly in *. set (iv := o_poly Orc fs (cs_box s)) in *.
      apply (from_step (CPoly fs) fs s _ iv K F N Hk).
      + destruct (b_empty (mkBox (bvars (cs_box s)) iv)); [apply (add_used_list_same fs)|]. destruct (changed_bits _ _ _ _); [reflexivity|apply (add_used_list_same fs)].
      + exact E.
      + reflexivity.
      + intros i Hi Hu. destruct (b_empty (mkBox (bvars (cs_box s)) iv)) eqn:E'; [rewrite (proj1 (add_used_list_same fs _)) in E; cbn [cs_box cs_with_box cs_with_out] in E; congruence|].
        destruct (changed_bits (fun _ => true) (bvals (cs_box s)) iv (length (bvals (cs_box s)))) as [|k l] eqn:Ec.
        * intros _. apply (changed_not (fun _ => true) _ _ (length (bvals (cs_box s))) i); [rewrite Ec; intros []|lia|reflexivity].
        * rewrite (proj2 (proj2 (add_used_list_same fs _))). intros Ho. apply (changed_not (fun _ => true) _ _ (length (bvals (cs_box s))) i); [|lia|reflexivity]. rewrite Ec. apply (fold_set _ _ _ Ho).
    - unfold prune_forall in Ep. destruct (o_fa Orc f (cs_box s)) as [iv|] eqn:Eo; [|discriminate Ep]. cbn [bind] in Ep. destruct Hc as [Hc _].
      pose proof (Hc (cs_box s) iv K eq_refl Eo) as Hk.
      match type of Ep with Some ?t = _ => assert (X : s' = t) by congruence end. subst s'. clear Ep.
      apply (from_step (CForall f) [f] s _ iv K F N Hk).
      + destruct (b_empty (mkBox (bvars (cs_box s)) iv)); apply add_used_box.
      + exact E.
      + intros i. cbn [existsb c_input]. apply orb_false_r.
      + intros i Hi Hu. destruct (b_empty (mkBox (bvars (cs_box s)) iv)) eqn:E'; [rewrite add_used_box in E; cbn [cs_box cs_with_box cs_with_out] in E; congruence|].
        rewrite add_used_out. intros Ho. apply (changed_not (fun _ => true) _ _ (b_size (cs_box s)) i); [|exact Hi|reflexivity]. apply (fold_set _ _ _ Ho).
  Qed.
End One.

Section Det.
  Variables (Orc : oracles) (term : list ival -> list ival -> bool).
  Lemma int_det idx : forall s t, cs_box s = cs_box t -> cs_box (prune_int idx s) = cs_box (prune_int idx t).
  Proof.
    induction idx as [|k idx IH]; intros s t E; cbn [prune_int]; [exact E|]. rewrite E.
    destruct (b_get (cs_box t) k) as [|l u]; [exact (IH _ _ E)|]. destruct (_ || _); [|exact (IH _ _ E)].
    destruct (dle _ _); [apply IH; reflexivity|]. destruct (nth_error _ k); reflexivity.
  Qed.
  Lemma single_det c n m s t s' t' : single c -> cs_box s = cs_box t -> prune Orc term n c s = Some s' -> prune Orc term m c t = Some t' -> cs_box t' = cs_box s'.
  Proof.
    intros Hs E H1 H2. destruct n as [|n]; [discriminate|]. destruct m as [|m]; [discriminate|].
    destruct c as [|idx|cs|f|fs|f|cs|cs|cs]; try destruct Hs; cbn [prune] in H1, H2.
    - assert (s' = prune_int idx s) as -> by congruence. assert (t' = prune_int idx t) as -> by congruence. apply int_det. congruence.
    - assert (s' = prune_fwd Orc f s) as -> by congruence. assert (t' = prune_fwd Orc f t) as -> by congruence. unfold prune_fwd. rewrite E.
      destruct (o_bwd Orc f (cs_box t)) as [inner iv]. destruct inner; [reflexivity|]. destruct (b_empty _); [rewrite !add_used_box; reflexivity|].
      destruct (changed_bits _ _ _ _); [reflexivity|rewrite !add_used_box; reflexivity].
    - assert (s' = prune_poly Orc fs s) as -> by congruence. assert (t' = prune_poly Orc fs t) as -> by congruence. unfold prune_poly. rewrite E.
      destruct (b_empty _); [rewrite !(proj1 (add_used_list_same fs _)); reflexivity|].
      destruct (changed_bits _ _ _ _); [reflexivity|rewrite !(proj1 (add_used_list_same fs _)); reflexivity].
    - unfold prune_forall in H1, H2. rewrite E in H1. destruct (o_fa Orc f (cs_box t)) as [iv|]; [|discriminate H1]. cbn [bind] in H1, H2.
      match type of H1 with Some ?x = _ => assert (s' = x) as -> by congruence end. match type of H2 with Some ?x = _ => assert (t' = x) as -> by congruence end.
      destruct (b_empty _); rewrite !add_used_box; reflexivity.
  Qed.
End Det.

(** ** The worklist *)
Section Work.
  Variables (M : interp) (D : pdom) (Orc : oracles) (term : list ival -> list ival -> bool) (vars : list var) (all : list contractor).
  Hypothesis Hok : Forall (c_ok M D Orc vars) all.
  Hypothesis Hsingle : Forall single all.
  Hypothesis Hlocal : Forall (decided_by_inputs Orc term vars) all.
  Hypothesis Hvars : vars <> [].

  Definition fine (b : box) : Prop := box_ok b /\ b_full b /\ bvars b = vars.
  Lemma local_rest c b b' : In c all -> fine b -> fine b' -> (forall i, c_input vars c i = true -> same_set (b_get b i) (b_get b' i)) -> at_rest Orc term c b -> at_rest Orc term c b'.
  Proof.
    intros Hc (K & F & V) (K' & F' & V') Hi R. pose proof (proj1 (Forall_forall _ _) Hlocal c Hc) as L. pose proof (proj1 (Forall_forall _ _) Hsingle c Hc) as Sg.
    destruct c as [|idx|cs|f|fs|f|cs|cs|cs]; try destruct Sg.
    - apply (int_local Orc term idx b b' K K' F'); [|exact R]. intros i Hi'. apply Hi. cbn [c_input]. apply existsb_exists. exists i. split; [exact Hi'|apply Nat.eqb_refl].
    - exact (L b b' K K' F F' V V' Hi R).
    - exact (L b b' K K' F F' V V' Hi R).
    - exact (L b b' K K' F F' V V' Hi R).
  Qed.
  Definition settled (b : box) (wl : bits) : Prop := forall j c, nth_error all j = Some c -> wl j = true \/ at_rest Orc term c b.

  (** Running contractor [k]: whoever loses its rest is on the list. *)
  Lemma run_one k c n s s' (wl : bits) : nth_error all k = Some c -> fine (cs_box s) -> prune Orc term n c (cs_with_out s bits0) = Some s' ->
    b_empty (cs_box s') = false ->
    fine (cs_box s') /\ forall j c', nth_error all j = Some c' -> (j = k \/ wl j = true \/ at_rest Orc term c' (cs_box s)) ->
      wl_update (bvars (cs_box s')) all (b_size (cs_box s')) (cs_out s') wl j = true \/ at_rest Orc term c' (cs_box s').
  Proof.
    intros Ek (K & F & V) Ep E. pose proof (nth_error_In _ _ Ek) as Hc. pose proof (proj1 (Forall_forall _ _) Hok c Hc) as Ok1. pose proof (proj1 (Forall_forall _ _) Hsingle c Hc) as Sg1.
    assert (Rp : reports c (cs_with_out s bits0) s').
    { apply (single_reports M D Orc term c n (cs_with_out s bits0) s'); cbn [cs_box cs_with_out]; auto; [rewrite V; exact Hvars|rewrite V; exact Ok1]. }
    destruct Rp as (K' & V' & F' & Hr). cbn [cs_box cs_with_out] in *.
    assert (Fs' : fine (cs_box s')) by (split; [exact K'|split; [exact F'|congruence]]). split; [exact Fs'|].
    assert (Keep : forall j c', nth_error all j = Some c' -> wl_update (bvars (cs_box s')) all (b_size (cs_box s')) (cs_out s') wl j = false ->
      forall i, c_input vars c' i = true -> same_set (b_get (cs_box s) i) (b_get (cs_box s') i)).
    { intros j c' Ej Ew i Hi. destruct (Hr i) as [X|(X1 & X2 & X3)]; [apply same_sym; exact X|]. exfalso.
      unfold wl_update in Ew. apply orb_false_iff in Ew. destruct Ew as [_ Ew]. rewrite Ej in Ew.
      assert (Y : existsb (fun i => cs_out s' i && c_input (bvars (cs_box s')) c' i) (seq 0 (b_size (cs_box s'))) = true); [|congruence].
      apply existsb_exists. exists i. split; [apply in_seq; unfold b_size in *; rewrite V'; lia|]. rewrite X2, V', V, Hi. reflexivity. }
    intros j c' Ej Hj. destruct (wl_update _ all _ _ wl j) eqn:Ew; [left; reflexivity|]. right.
    pose proof (Keep j c' Ej Ew) as Kp. destruct Hj as [->|[Hw|Hrest]].
    - assert (c' = c) as -> by congruence. apply (local_rest c (cs_box s)); [exact Hc|split; auto|exact Fs'|exact Kp|].
      intros n' t t' Et Ept i. rewrite (single_det Orc term c n n' (cs_with_out s bits0) t s' t' Sg1 (eq_sym Et) Ep Ept).
      destruct (Hr i) as [X|(X1 & X2 & X3)]; [exact X|]. apply same_sym, Kp. rewrite <- V. exact X3.
    - exfalso. unfold wl_update in Ew. rewrite Hw in Ew. discriminate.
    - apply (local_rest c' (cs_box s)); [exact (nth_error_In _ _ Ej)|split; auto|exact Fs'|exact Kp|exact Hrest].
  Qed.

  Lemma phase2_rest n p : forall s wl k s', fine (cs_box s) -> (forall j c, nth_error all j = Some c -> wl j = true \/ at_rest Orc term c (cs_box s)) ->
    wl_phase2 (prune Orc term p) n all s wl k = Some s' -> b_empty (cs_box s') = false -> forall c, In c all -> at_rest Orc term c (cs_box s').
  Proof.
    induction n as [|n IH]; intros s wl k s' Fs Hs E Em; cbn [wl_phase2] in E; [discriminate|].
    destruct (nth_error all k) as [c|] eqn:Ek; [|discriminate].
    destruct (prune Orc term p c (cs_with_out s bits0)) as [s1|] eqn:Ep; cbn [bind] in E; [|discriminate].
    destruct (b_empty (cs_box s1)) eqn:E1; [congruence|].
    destruct (run_one k c p s s1 (fun j => negb (Nat.eqb j k) && wl j) Ek Fs Ep E1) as [F1 H1].
    assert (H2 : settled (cs_box s1) (wl_update (bvars (cs_box s1)) all (b_size (cs_box s1)) (cs_out s1) (fun j => negb (Nat.eqb j k) && wl j))).
    { intros j c' Ej. apply H1; [exact Ej|]. destruct (Nat.eqb j k) eqn:Ejk; [left; apply Nat.eqb_eq; exact Ejk|]. right. exact (Hs j c' Ej). }
    destruct (bits_find _ 0 (length all)) as [first|] eqn:Ef.
    - destruct (bits_find _ (S k) _) as [k'|]; exact (IH _ _ _ _ F1 H2 E Em).
    - assert (s' = s1) as -> by congruence. intros c0 Hc0. destruct (In_nth_error _ _ Hc0) as [j Ej]. destruct (H2 j c0 Ej) as [X|X]; [|exact X].
      assert (j < length all) by (apply nth_error_Some; congruence).
      rewrite (proj1 (bits_find_none _ _ _) Ef j) in X by lia. discriminate.
  Qed.
  (** Phase 1 over a list of contractors: those run, and those at rest before, are settled afterwards. *)
  Lemma phase1_rest p cs : forall s wl s' wl' (done : contractor -> Prop), (forall c, In c cs -> In c all) -> fine (cs_box s) ->
    (forall j c, nth_error all j = Some c -> done c -> wl j = true \/ at_rest Orc term c (cs_box s)) ->
    wl_phase1 (prune Orc term p) all cs s wl = Some (s', wl', false) ->
    fine (cs_box s') /\ forall j c, nth_error all j = Some c -> done c \/ In c cs -> wl' j = true \/ at_rest Orc term c (cs_box s').
  Proof.
    induction cs as [|c cs IH]; intros s wl s' wl' done Hin Fs Hd E; cbn [wl_phase1] in E.
    - assert (s' = s) as -> by congruence. assert (wl' = wl) as -> by congruence. split; [exact Fs|]. intros j c Ej [Hc|[]]. exact (Hd j c Ej Hc).
    - destruct (prune Orc term p c (cs_with_out s bits0)) as [s1|] eqn:Ep; cbn [bind] in E; [|discriminate].
      destruct (b_empty (cs_box s1)) eqn:E1; [congruence|].
      destruct (In_nth_error _ _ (Hin c (or_introl eq_refl))) as [k Ek].
      destruct (run_one k c p s s1 wl Ek Fs Ep E1) as [F1 H1].
      apply (IH _ _ s' wl' (fun c0 => done c0 \/ c0 = c)) in E; [|intros c0 Hc0; apply Hin; right; exact Hc0|exact F1|].
      + destruct E as [A B]. split; [exact A|]. intros j c0 Ej Hc0. apply (B j c0 Ej). cbn [In] in Hc0. destruct Hc0 as [X|[X|X]]; auto.
      + intros j c0 Ej [Hc0| ->]; [exact (H1 j c0 Ej (or_intror (Hd j c0 Ej Hc0)))|].
        destruct (run_one j c p s s1 wl Ej Fs Ep E1) as [_ H1']. exact (H1' j c Ej (or_introl eq_refl)).
  Qed.
  Lemma phase1_empty pr cs : forall s wl s' wl', wl_phase1 pr all cs s wl = Some (s', wl', true) -> b_empty (cs_box s') = true.
  Proof.
    clear. induction cs as [|c cs IH]; intros s wl s' wl' E; cbn [wl_phase1] in E; [congruence|].
    destruct (pr c (cs_with_out s bits0)) as [s2|]; cbn [bind] in E; [|discriminate]. destruct (b_empty (cs_box s2)) eqn:E2; [congruence|]. exact (IH _ _ _ _ E).
  Qed.
  Theorem work_rest n s s' : box_ok (cs_box s) -> b_full (cs_box s) -> bvars (cs_box s) = vars ->
    (forall i, cs_bp s = Some i -> forall c, In c all -> c_input vars c i = false -> at_rest Orc term c (cs_box s)) ->
    prune Orc term n (CWork all) s = Some s' -> b_empty (cs_box s') = false ->
    term (bvals (cs_box s)) (bvals (cs_box s')) = true \/ forall c, In c all -> at_rest Orc term c (cs_box s').
  Proof.
    intros K F V Hbp Ep E. destruct n as [|n]; [discriminate|]. cbn [prune] in Ep. unfold wl_run in Ep.
    set (todo := match cs_bp s with None => all | Some i => filter (fun c => c_input (bvars (cs_box s)) c i) all end) in *.
    destruct (wl_phase1 (prune Orc term n) all todo s bits0) as [[[s1 wl] e]|] eqn:E1; cbn [bind] in Ep; [|discriminate].
    destruct e.
    { exfalso. assert (s' = s1) as -> by congruence. rewrite (phase1_empty _ _ _ _ _ _ E1) in E. discriminate. }
    apply (phase1_rest n todo s bits0 s1 wl (fun c => match cs_bp s with Some i => c_input vars c i = false | None => False end)) in E1.
    2: { intros c. unfold todo. destruct (cs_bp s); [intros Hc; apply filter_In in Hc; tauto|auto]. }
    2: { split; auto. }
    2: { intros j c Ej Hd. right. destruct (cs_bp s) as [i|]; [|destruct Hd]. exact (Hbp i eq_refl c (nth_error_In _ _ Ej) Hd). }
    destruct E1 as [F1 H1].
    assert (H2 : settled (cs_box s1) wl).
    { intros j c Ej. apply (H1 j c Ej). unfold todo. destruct (cs_bp s) as [i|]; [|right; exact (nth_error_In _ _ Ej)].
      destruct (c_input vars c i) eqn:Ec; [right; apply filter_In; split; [exact (nth_error_In _ _ Ej)|rewrite V; exact Ec]|left; reflexivity]. }
    destruct (bits_find wl 0 (length all)) as [k|] eqn:Ef.
    - destruct (term (bvals (cs_box s)) (bvals (cs_box s1))) eqn:Et; [left; congruence|]. right. exact (phase2_rest n n s1 wl k s' F1 H2 Ep E).
    - right. assert (s' = s1) as -> by congruence. intros c Hc. destruct (In_nth_error _ _ Hc) as [j Ej]. destruct (H2 j c Ej) as [X|X]; [|exact X].
      assert (j < length all) by (apply nth_error_Some; congruence). rewrite (proj1 (bits_find_none _ _ _) Ef j) in X by lia. discriminate.
  Qed.
End Work.

Lemma integer_rest (Orc : oracles) (term : list ival -> list ival -> bool) idx b : box_ok b -> b_full b ->
  (at_rest Orc term (CInteger idx) b <->
   forall i x, In i idx -> imem x (b_get b i) -> exists p q : Z, imem (IZR p) (b_get b i) /\ imem (IZR q) (b_get b i) /\ (IZR p <= x <= IZR q)%R).
Proof.
  intros K F. split.
  - intros R i x Hi Hx. specialize (R 1%nat (cs_new b None) _ eq_refl eq_refl i). apply R in Hx. exact (int_in_hull idx (cs_new b None) i x K Hi Hx).
  - intros H n s s' Eb Ep. destruct n as [|n]; [discriminate|]. cbn [prune] in Ep. assert (s' = prune_int idx s) as -> by congruence. rewrite <- Eb. apply int_rest; rewrite Eb; assumption.
Qed.
