(** * Boxes of a context: declaring variables and changing domains *)
From Coq Require Import ZArith Reals Lra Lia List Bool.
From Flocq Require Import IEEE754.BinarySingleNaN.
From Verif Require Import Dbl DblProofs Syntax Sem SemProofs Interval IntervalProofs MathConv MathConvProofs IEval Contr Icp IcpTop FormulaCons Filter Theory IteElim Sat Context SpecCtx.
Import ListNotations.

Lemma iv_resize_nth n l j : (j < n)%nat -> nth j (iv_resize n l) IEmpty = if Nat.ltb j (length l) then nth j l IEmpty else i_all.
Proof.
  intros H. unfold iv_resize. destruct (Nat.ltb_spec j (length l)) as [L|L].
  - rewrite app_nth1 by (rewrite firstn_length; lia). rewrite <- (firstn_skipn n l) at 2. rewrite app_nth1 by (rewrite firstn_length; lia). reflexivity.
  - rewrite app_nth2 by (rewrite firstn_length; lia). rewrite firstn_length. replace (min n (length l)) with (length l) by lia.
    apply (repeat_spec (n - length l) i_all). apply nth_In. rewrite repeat_length. lia.
Qed.
Lemma iv_resize_length n l : length (iv_resize n l) = n.
Proof. unfold iv_resize. rewrite app_length, firstn_length, repeat_length. lia. Qed.
Lemma iv_resize_ok n l : Forall i_ok l -> Forall i_ok (iv_resize n l).
Proof.
  intros H. unfold iv_resize. apply Forall_app. split; [apply Forall_forall; intros x Hx; rewrite Forall_forall in H; apply H; rewrite <- (firstn_skipn n l); apply in_or_app; left; exact Hx|].
  apply Forall_forall. intros x Hx. apply repeat_spec in Hx. subst. repeat split; reflexivity.
Qed.
Lemma default_ok t d : default_dom t = Some d -> i_ok d.
Proof. destruct t; cbn [default_dom]; intros [= <-]; repeat split; reflexivity. Qed.

(** ** Box::Add *)
Section Add.
  Variables (b : box) (v : var).
  Hypothesis (K : box_ok b) (N : ~ In v (bvars b)).
  Let n := length (bvars b).
  Lemma b_add_ok : box_ok (b_add b v).
  Proof.
    destruct K as (K1 & K2 & K3). split; [|split]; cbn [b_add bvars bvals].
    - apply NoDup_rev in K1. rewrite <- (rev_involutive (bvars b ++ [v])). apply NoDup_rev. rewrite rev_app_distr. cbn [rev app]. constructor; auto. rewrite <- in_rev. exact N.
    - rewrite app_length. cbn [length]. fold n. destruct (default_dom (vty v)); rewrite ?upd_nth_length, iv_resize_length; unfold b_size; fold n; lia.
    - destruct (default_dom (vty v)) eqn:E; [apply Forall_upd_nth; [|apply (default_ok _ _ E)]|]; apply iv_resize_ok; auto.
  Qed.
  Lemma b_add_old j : (j < n)%nat -> b_get (b_add b v) j = b_get b j.
  Proof.
    intros H. destruct K as (K1 & K2 & K3). unfold b_get. cbn [b_add bvals].
    destruct (default_dom (vty v)); rewrite ?nth_upd_nth_ne by (unfold b_size; fold n; lia); rewrite iv_resize_nth by (unfold b_size; fold n; lia);
      destruct (Nat.ltb_spec j (length (bvals b))); auto; fold n in K2; lia.
  Qed.
  Lemma b_add_new_comp : b_get (b_add b v) n = match default_dom (vty v) with Some d => d | None => if Nat.eqb n 0 then b_get b 0 else i_all end.
  Proof.
    destruct K as (K1 & K2 & K3). fold n in K2. unfold b_get. cbn [b_add bvals]. destruct (default_dom (vty v)).
    - apply nth_upd_nth_eq. rewrite iv_resize_length. unfold b_size. fold n. lia.
    - rewrite iv_resize_nth by (unfold b_size; fold n; lia). destruct (Nat.eqb_spec n 0) as [Z|Z].
      + destruct (Nat.ltb_spec n (length (bvals b))) as [_|L]; [rewrite Z; reflexivity|exfalso; lia].
      + destruct (Nat.ltb_spec n (length (bvals b))) as [L|_]; [exfalso; lia|reflexivity].
  Qed.
  Lemma b_add_index : b_idx0 (b_add b v) v = n.
  Proof.
    assert (H : forall l, ~ In v l -> index_of v (l ++ [v]) = Some (length l)).
    { induction l as [|w l IH]; intros Nl; cbn [app index_of length].
      - assert (E : var_eqb v v = true) by now apply var_eqb_eq. rewrite E. reflexivity.
      - destruct (var_eqb v w) eqn:E; [apply var_eqb_eq in E; subst; exfalso; apply Nl; left; reflexivity|].
        rewrite (IH (fun H => Nl (or_intror H))). reflexivity. }
    unfold b_idx0, b_index. cbn [b_add bvars]. rewrite (H _ N). reflexivity.
  Qed.
End Add.

(** A box without variables still has one component, which the first real variable inherits. *)
Definition phantom (b : box) : Prop := bvars b = [] -> b_empty b = false -> forall x, imem x (b_get b 0).
Lemma phantom_nonnil b : bvars b <> [] -> phantom b. Proof. intros H E. contradiction. Qed.

Lemma in_box_app rho b b' v : bvars b' = bvars b ++ [v] -> (forall j, (j < length (bvars b))%nat -> b_get b' j = b_get b j) ->
  in_box rho b -> imem (rho v) (b_get b' (length (bvars b))) -> in_box rho b'.
Proof.
  intros E1 E2 [A B] C. split.
  - rewrite b_empty_get in *. destruct (bvars b) as [|w l] eqn:El; cbn [length] in *; [exact (imem_nonempty _ _ C)|rewrite E2 by lia; exact A].
  - intros i w Hi. rewrite E1 in Hi. destruct (Nat.lt_ge_cases i (length (bvars b))) as [L|L].
    + rewrite nth_error_app1 in Hi by exact L. rewrite E2 by exact L. exact (B i w Hi).
    + rewrite nth_error_app2 in Hi by exact L. destruct (i - length (bvars b))%nat as [|k] eqn:Ek; [|destruct k; discriminate]. cbn [nth_error] in Hi. injection Hi as <-.
      replace i with (length (bvars b)) by lia. exact C.
Qed.

Lemma dom0_default' t x : match default_dom t with Some d => imem x d <-> dom0 t x | None => True end.
Proof.
  assert (E0 : d2e dzero = Fin 0) by reflexivity. assert (E1 : d2e (dZ 1) = Fin 1) by (rewrite (finite_d2e _ one_fin), one_R; reflexivity).
  assert (F : is_finite int_max = true) by reflexivity.
  assert (E2 : B2R int_max = 2147483647%R) by (unfold int_max; exact (proj2 (dZ_exact 2147483647 ltac:(lia)))).
  assert (E3 : is_finite (dopp int_max) = true) by reflexivity.
  assert (E4 : B2R (dopp int_max) = (-2147483647)%R) by (unfold dopp; rewrite B2R_Bopp, E2; lra).
  destruct t; cbn [default_dom]; auto; cbn [imem dom0]; rewrite ?E0, ?E1, ?(finite_d2e _ F), ?(finite_d2e _ E3), ?E2, ?E4; cbn [ext_le]; reflexivity.
Qed.
Lemma dom0_default t x d : default_dom t = Some d -> (imem x d <-> dom0 t x).
Proof. intros H. pose proof (dom0_default' t x) as X. rewrite H in X. exact X. Qed.

Lemma dom0_range t x : is_int_type t = true -> dom0 t x -> (Rabs x <= 9007199254740991)%R.
Proof. destruct t; cbn; try discriminate; intros _ H; apply Rabs_le; lra. Qed.

Section AddNew.
  Variables (b : box) (v : var).
  Hypothesis K : box_ok b.
  Lemma has_In : b_has b v = true <-> In v (bvars b).
  Proof. unfold b_has. apply mem_var_In. Qed.
  Lemma nohas : b_has b v = false -> ~ In v (bvars b). Proof. intros H C. apply has_In in C. congruence. Qed.
  Lemma add_new_ok : box_ok (b_add_new b v).
  Proof. unfold b_add_new. destruct (b_has b v) eqn:E; [exact K|]. apply b_add_ok; [exact K|apply nohas; exact E]. Qed.
  Lemma add_new_vars w : In w (bvars (b_add_new b v)) <-> In w (bvars b) \/ w = v.
  Proof.
    unfold b_add_new. destruct (b_has b v) eqn:E.
    - apply has_In in E. split; [auto|]. intros [H| ->]; auto.
    - cbn [b_add bvars]. rewrite in_app_iff. cbn [In]. split; intros [H|H]; auto. destruct H as [H|[]]; auto.
  Qed.
  Lemma new_comp_range : ~ In v (bvars b) -> is_int_type (vty v) = true -> forall x, imem x (b_get (b_add b v) (length (bvars b))) -> (Rabs x <= 9007199254740991)%R.
  Proof.
    intros N I x H. rewrite (b_add_new_comp b v K) in H. destruct (default_dom (vty v)) as [d|] eqn:E; [|destruct (vty v); discriminate].
    apply (dom0_range _ x I). apply (dom0_default _ x d E). exact H.
  Qed.
  Lemma nth_app_cases (i : nat) w : nth_error (bvars b ++ [v]) i = Some w -> (i < length (bvars b) /\ nth_error (bvars b) i = Some w)%nat \/ (i = length (bvars b) /\ w = v).
  Proof.
    intros Hi. destruct (Nat.lt_ge_cases i (length (bvars b))) as [L|L]; [rewrite nth_error_app1 in Hi by exact L; auto|].
    rewrite nth_error_app2 in Hi by exact L. destruct (i - length (bvars b))%nat as [|k] eqn:Ek; [|destruct k; discriminate]. cbn [nth_error] in Hi. injection Hi as <-. right. split; [lia|reflexivity].
  Qed.
  Lemma add_new_range : int_range b -> int_range (b_add_new b v).
  Proof.
    intros R. unfold b_add_new. destruct (b_has b v) eqn:E; [exact R|]. pose proof (nohas E) as N. intros i w x Hi It Hx. cbn [b_add bvars] in Hi.
    destruct (nth_app_cases i w Hi) as [[L H]|[-> ->]].
    - rewrite (b_add_old b v K) in Hx by exact L. exact (R i w x H It Hx).
    - exact (new_comp_range N It x Hx).
  Qed.
  Lemma add_new_phantom : phantom b -> phantom (b_add_new b v).
  Proof.
    intros P. unfold b_add_new. destruct (b_has b v) eqn:E; [exact P|]. apply phantom_nonnil. cbn [b_add bvars]. destruct (bvars b); discriminate.
  Qed.
  Lemma new_comp_mem x : phantom b -> (bvars b = [] -> b_empty b = false) -> dom0 (vty v) x -> imem x (b_get (b_add b v) (length (bvars b))).
  Proof.
    intros P Em Dv. rewrite (b_add_new_comp b v K). destruct (default_dom (vty v)) as [d|] eqn:Ed; [apply (dom0_default _ _ d Ed); auto|].
    destruct (Nat.eqb_spec (length (bvars b)) 0) as [Z|Z]; [|apply i_all_mem]. assert (E : bvars b = []) by (destruct (bvars b); [reflexivity|discriminate]). apply P; auto.
  Qed.
  Lemma add_new_in rho : phantom b -> in_box rho b -> (~ In v (bvars b) -> dom0 (vty v) (rho v)) -> in_box rho (b_add_new b v).
  Proof.
    intros P I Dv. unfold b_add_new. destruct (b_has b v) eqn:E; [exact I|]. pose proof (nohas E) as N.
    apply (in_box_app rho b (b_add b v) v); [reflexivity|apply b_add_old; exact K|exact I|].
    apply new_comp_mem; [exact P|intros _; apply I|auto].
  Qed.
End AddNew.

(** The variables of if-then-else elimination. *)
Lemma add_news vs : forall b, box_ok b -> (forall v, In v vs -> vty v = CONTINUOUS) -> let b' := fold_left b_add_new vs b in
  box_ok b' /\ (forall w, In w (bvars b') <-> In w (bvars b) \/ In w vs) /\ (int_range b -> int_range b') /\ (phantom b -> phantom b') /\ (forall rho, phantom b -> in_box rho b -> in_box rho b').
Proof.
  induction vs as [|v vs IH]; intros b K C; cbn [fold_left]; cbn zeta.
  { split; [exact K|]. split; [intros w; cbn [In]; tauto|]. auto. }
  destruct (IH (b_add_new b v) (add_new_ok b v K) (fun w H => C w (or_intror H))) as (A1 & A2 & A3 & A4 & A5).
  split; [exact A1|]. split; [intros w; rewrite A2, add_new_vars; cbn [In]; intuition auto|]. split; [intros R; apply A3, add_new_range; auto|].
  split; [intros P; apply A4, add_new_phantom; auto|]. intros rho P I. apply A5; [apply add_new_phantom; auto|]. apply add_new_in; auto.
  intros _. rewrite (C v (or_introl eq_refl)). exact Logic.I.
Qed.

(** ** SetInterval *)
Lemma idx0_nth b v : In v (bvars b) -> nth_error (bvars b) (b_idx0 b v) = Some v.
Proof. intros H. unfold b_idx0, b_index. destruct (index_of_In v _ H) as [i Hi]. rewrite Hi. apply index_of_nth. exact Hi. Qed.
Lemma setv_range b v i : box_ok b -> In v (bvars b) -> int_range b -> (is_int_type (vty v) = true -> forall x, imem x i -> (Rabs x <= 9007199254740991)%R) -> int_range (b_setv b v i).
Proof.
  intros K I R H j w x Hj It Hx. cbn [b_setv b_set bvars] in Hj. pose proof (idx0_nth b v I) as Hv. unfold b_setv in Hx.
  destruct (Nat.eq_dec (b_idx0 b v) j) as [E|E].
  - rewrite <- E in *. rewrite b_get_set_eq in Hx by exact (box_ok_len b _ v K Hv). rewrite Hv in Hj. injection Hj as <-. auto.
  - rewrite b_get_set_ne in Hx by exact E. exact (R j w x Hj It Hx).
Qed.
Lemma setv_ok b v i : box_ok b -> i_ok i -> box_ok (b_setv b v i). Proof. apply b_set_ok. Qed.
(** Declare with bounds, for a new variable. *)
Lemma add_set_in rho b v i : box_ok b -> ~ In v (bvars b) -> in_box rho b -> imem (rho v) i -> in_box rho (b_setv (b_add b v) v i).
Proof.
  intros K N I Hi. unfold b_setv. rewrite (b_add_index b v N).
  assert (L : (length (bvars b) < length (bvals (b_add b v)))%nat).
  { destruct (b_add_ok b v K N) as (_ & E & _). rewrite E. cbn [b_add bvars]. rewrite app_length. cbn [length]. lia. }
  apply (in_box_app rho b _ v); [reflexivity| |exact I|rewrite b_get_set_eq by exact L; exact Hi].
  intros j Hj. rewrite b_get_set_ne by lia. apply b_add_old; auto.
Qed.
