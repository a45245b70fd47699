(** The theory solver's explanations. *)
From Coq Require Import ZArith Reals Lra Lia List Bool.
From Flocq Require Import Core.Core IEEE754.BinarySingleNaN.
From Verif Require Import Dbl DblProofs Syntax Sem SemProofs Interval IntervalProofs MathConv MathConvProofs IEval IEvalProofs Contr ContrProofs IbexConv Icp IcpProofs IcpTop IcpPar IcpParProofs Filter FilterProofs Theory ExplainProofs.
Import ListNotations.

(** Contractors whose pruning can be attributed to one constraint at a time. *)
Fixpoint c_plain (c : contractor) : Prop :=
  match c with
  | CId | CInteger _ | CFwd _ | CForall _ => True
  | CSeq cs | CFix cs | CWork cs => fold_right (fun c' acc => c_plain c' /\ acc) True cs
  | CPoly _ | CJoin _ => False
  end.
Lemma plain_list cs : fold_right (fun c' acc => c_plain c' /\ acc) True cs <-> Forall c_plain cs.
Proof. induction cs as [|a cs IH]; cbn; split; intros H; auto; [constructor; tauto|inversion H; subst; tauto]. Qed.

Section Expl.
  Variables (M : interp) (D : pdom) (Orc : oracles) (term : list ival -> list ival -> bool).
  (** the constraints recorded as used and the witness variables at the end of the search *)
  Variables (U : list formula) (W : list var) (rho : env).
  Notation E := (explanation W U).
  Hypothesis Hwt : well_typed rho.
  Hypothesis Hsol : forall f, In f E -> solves M D f rho.

  Definition V (v : var) : bool := mem_var v W || existsb (fun f => mem_var v (fvF f)) E.
  Lemma V_wit v : In v W -> V v = true.
  Proof. intros H. unfold V. rewrite (proj2 (mem_var_In v W) H). reflexivity. Qed.
  Lemma V_fv f v : In f E -> In v (fvF f) -> V v = true.
  Proof. intros H1 H2. unfold V. apply orb_true_iff. right. apply existsb_exists. exists f. split; auto. apply mem_var_In; auto. Qed.
  (** a used constraint that meets V, or has no variables, is in the explanation *)
  Lemma V_closed f v : In f U -> In v (fvF f) -> V v = true -> In f E.
  Proof.
    destruct (explanation_spec W U) as (A & B & C & F). intros Hf Hv H. apply orb_true_iff in H. destruct H as [H|H].
    - apply mem_var_In in H. eapply C; eauto.
    - apply existsb_exists in H. destruct H as (g & Hg & H). apply mem_var_In in H. apply (F g f v); auto.
  Qed.
  Lemma U_wit f : In f U -> (forall v, In v (fvF f) -> In v W) -> In f E.
  Proof.
    destruct (explanation_spec W U) as (A & B & C & F). intros Hf Hv. destruct (fvF f) as [|v l] eqn:Ef; [apply B; auto|].
    apply (C f v); auto; [rewrite Ef; left; auto|apply Hv; left; auto].
  Qed.

  Definition good (b : box) : Prop := b_full b /\ forall i v, nth_error (bvars b) i = Some v -> V v = true -> imem (rho v) (b_get b i).
  Definition R (s : cstat) : Prop := incl (cs_used s) U /\ incl (cs_wit s) W.
  Lemma R_keeps P s s' : keeps P s s' -> R s' -> R s.
  Proof. intros K [A B]. split; eapply incl_tran; [apply (k_used _ _ _ K)|exact A|apply (k_wit _ _ _ K)|exact B]. Qed.
  Lemma R_same s b bp o : R (mkCs b bp o (cs_used s) (cs_wit s)) <-> R s.
  Proof. reflexivity. Qed.
  Lemma R_used s f : R (add_used s f) -> R s.
  Proof. intros [A B]. split; intros x Hx; [apply A, add_used_used|apply B, add_used_wit]; auto. Qed.
  Lemma R_used_in s f : R (add_used s f) -> In f U.
  Proof. intros [A _]. apply A, add_used_used. auto. Qed.
  Lemma R_used_wit s f : b_empty (cs_box s) = true -> R (add_used s f) -> forall v, In v (fvF f) -> In v W.
  Proof. intros H [_ B] v Hv. apply B, add_used_wit. auto. Qed.
  Lemma R_join a b : R (cs_join a b) -> R a /\ R b.
  Proof.
    intros [A B]. cbn [cs_join cs_used cs_wit] in *. split; split; intros x Hx; (apply A; apply set_union_In; [apply mem_form_In|auto]) || (apply B; apply set_union_In; [apply mem_var_In|auto]).
  Qed.

  Lemma complete b : box_ok b -> good b -> exists rho', (forall v, V v = true -> rho' v = rho v) /\ in_box rho' b.
  Proof.
    intros K [F H]. exists (fun v => if V v then rho v else ipt (b_getv b v)). split; [intros v Hv; rewrite Hv; auto|].
    split; [apply full_nonempty; auto|]. intros i v Hi. destruct (V v) eqn:E; [apply H; auto|].
    assert (X : b_idx0 b v = i).
    { unfold b_idx0, b_index. destruct (index_of_In v (bvars b) (nth_error_In _ _ Hi)) as (j & Ej). rewrite Ej. apply index_of_nth in Ej.
      destruct K as (N & _ & _). apply (proj1 (NoDup_nth_error (bvars b)) N); [apply nth_error_Some|]; congruence. }
    unfold b_getv. rewrite X. apply ipt_mem; [apply box_ok_get; auto|]. eapply full_get; eauto.
  Qed.

  (** One constraint's pruning step. *)
  Lemma leaf_good f b iv : box_ok b -> good b -> step_ok M D [f] b iv ->
    (b_empty (mkBox (bvars b) iv) = true -> In f U /\ forall v, In v (fvF f) -> In v W) ->
    (forall i v, nth_error (bvars b) i = Some v -> In v (fvF f) -> i_eqb (b_get b i) (nth i iv IEmpty) = false -> In f U) ->
    b_empty (mkBox (bvars b) iv) = false /\ good (mkBox (bvars b) iv).
  Proof.
    intros K G (S1 & S2 & S3 & S4 & S5) He Hc. assert (K' : box_ok (mkBox (bvars b) iv)) by (apply box_ok_mk; auto).
    assert (X : good (mkBox (bvars b) iv)); [|split; auto; apply full_nonempty; [exact K'|apply X]].
    destruct (mem_form f E) eqn:Em.
    - apply mem_form_In in Em. destruct (complete b K G) as (rho' & A & B).
      assert (I' : in_box rho' (mkBox (bvars b) iv)).
      { apply S4; auto. intros g [<-|[]]. apply (solves_agree M D f rho); auto. intros v Hv. symmetry. apply A. eapply V_fv; eauto. }
      split; [apply (in_box_full rho'); auto|]. intros i v Hi Hv. rewrite <- (A v Hv). apply I'; auto.
    - assert (Nf : ~ In f E) by (intros C; apply mem_form_In in C; congruence).
      destruct (S5 (proj1 G)) as [Ha|[Ha Ho]].
      + exfalso. apply Nf. assert (Eb : b_empty (mkBox (bvars b) iv) = true).
        { unfold b_empty. cbn [bvals]. destruct iv as [|x iv]; [reflexivity|]. inversion Ha; subst. reflexivity. }
        destruct (He Eb). apply U_wit; auto.
      + split; [exact Ha|]. intros i v Hi Hv. cbn [bvars] in Hi. unfold b_get at 1. cbn [bvals]. pose proof (proj2 G i v Hi Hv) as Hm.
        destruct (mem_var v (fvF f)) eqn:Ev.
        * apply mem_var_In in Ev. destruct (i_eqb (b_get b i) (nth i iv IEmpty)) eqn:Eq; [eapply i_eqb_mem; eauto|].
          exfalso. apply Nf. eapply V_closed; eauto.
        * rewrite (Ho i v Hi); auto. intros g [<-|[]] C. apply mem_var_In in C. congruence.
  Qed.

  Lemma fwd_good f s : box_ok (cs_box s) -> good (cs_box s) -> fwd_ok M D Orc f (bvars (cs_box s)) -> R (prune_fwd Orc f s) ->
    b_empty (cs_box (prune_fwd Orc f s)) = false /\ good (cs_box (prune_fwd Orc f s)).
  Proof.
    intros K G H. destruct (H _ K eq_refl) as [Hs Hi]. unfold prune_fwd.
    destruct (o_bwd Orc f (cs_box s)) as [inner iv]. cbn [fst snd] in *. set (b := cs_box s) in *.
    destruct inner.
    - intros _. cbn [cs_with_box cs_box]. rewrite (Hi eq_refl). destruct b as [vs vl]. cbn [bvars bvals] in *. split; auto. apply full_nonempty; auto. apply G.
    - destruct (b_empty (mkBox (bvars b) iv)) eqn:Ee.
      + intros HR. exfalso.
        assert (X : b_empty (mkBox (bvars b) iv) = false).
        { apply (leaf_good f b iv K G Hs).
          - intros _. split; [eapply R_used_in; eauto|]. eapply R_used_wit; [|exact HR]. exact Ee.
          - intros i v _ _ _. eapply R_used_in; eauto. }
        congruence.
      + destruct (changed_bits (uses (bvars b) f) (bvals b) iv (b_size b)) as [|c l] eqn:Ec; intros HR.
        * cbn [cs_with_box cs_box]. apply (leaf_good f b iv K G Hs); [congruence|].
          intros i v Hv Hf Hq. exfalso. assert (X : In i (changed_bits (uses (bvars b) f) (bvals b) iv (b_size b))); [|rewrite Ec in X; destruct X].
          unfold changed_bits. apply filter_In. split; [apply in_seq; unfold b_size; assert (i < length (bvars b)) by (apply nth_error_Some; congruence); lia|].
          unfold uses. rewrite Hv, (proj2 (mem_var_In _ _) Hf). unfold b_get in Hq. rewrite Hq. reflexivity.
        * rewrite add_used_box. cbn [cs_with_box cs_with_out cs_box]. apply (leaf_good f b iv K G Hs); [congruence|]. intros; eapply R_used_in; eauto.
  Qed.
  Lemma forall_good f s s' : box_ok (cs_box s) -> good (cs_box s) -> fa_ok M D Orc f (bvars (cs_box s)) -> prune_forall Orc f s = Some s' -> R s' ->
    b_empty (cs_box s') = false /\ good (cs_box s').
  Proof.
    intros K G H. unfold prune_forall. destruct (o_fa Orc f (cs_box s)) as [iv|] eqn:Ef; cbn [bind]; [|discriminate]. pose proof (H _ _ K eq_refl Ef) as Hs.
    set (b := cs_box s) in *. destruct (b_empty (mkBox (bvars b) iv)) eqn:Ee; intros [= <-] HR; rewrite add_used_box; cbn [cs_with_box cs_with_out cs_box].
    - apply (leaf_good f b iv K G Hs); [|intros; eapply R_used_in; eauto]. intros _. split; [eapply R_used_in; eauto|]. eapply R_used_wit; [|exact HR]. exact Ee.
    - apply (leaf_good f b iv K G Hs); [congruence|intros; eapply R_used_in; eauto].
  Qed.

  (** *** The integer contractor *)
  Definition has_int (i : ival) : Prop := exists z, imem (IZR z) i.
  Lemma round_has_int l u : i_ok (IV l u) -> dle (dceil l) (dfloor u) = true -> has_int (mk_ival (dceil l) (dfloor u)).
  Proof.
    intros K H. destruct (i_ok_nan _ _ K) as [Nl Nu]. pose proof (dceil_nan _ Nl) as C1. pose proof (dfloor_nan' _ Nu) as C2. apply dle_true in H.
    unfold has_int. destruct (is_finite l) eqn:Fl.
    - exists (Zceil (B2R l)). apply mk_ival_mem; auto. assert (X : d2e (dceil l) = Fin (IZR (Zceil (B2R l)))) by (rewrite finite_d2e, dceil_R by (rewrite dceil_fin; auto); auto).
      rewrite X in *. split; auto. cbn; lra.
    - destruct (is_finite u) eqn:Fu.
      + exists (Zfloor (B2R u)). apply mk_ival_mem; auto. assert (X : d2e (dfloor u) = Fin (IZR (Zfloor (B2R u)))) by (rewrite finite_d2e, dfloor_R by (rewrite dfloor_fin; auto); auto).
        rewrite X in *. split; auto. cbn; lra.
      + exists 0%Z. apply mk_ival_mem; auto. destruct K as (_ & Ka & Kb). destruct l as [|[]| |], u as [|[]| |]; try discriminate; cbn; auto.
  Qed.
  Lemma integer_has_int l u : i_ok (IV l u) -> is_integer l = true -> has_int (IV l u).
  Proof.
    intros (A & _) H. apply is_integer_spec in H. destruct H as (F & z & _ & E). exists z. apply dle_true in A. cbn [imem]. rewrite (finite_d2e _ F) in *. rewrite <- E. split; auto. cbn; lra.
  Qed.
  Lemma b_set_full b i x : b_full b -> i_empty x = false -> b_full (b_set b i x).
  Proof. intros F Hx. unfold b_full in *. cbn [b_set bvals]. apply Forall_upd_nth; auto. Qed.
  Lemma has_int_nonempty i : has_int i -> i_empty i = false.
  Proof. intros [z H]. eapply imem_nonempty; eauto. Qed.
  (** Rounding keeps components that contain an integer, and makes the rounded ones contain one. *)
  Lemma int_good idx : forall s (T : list nat), box_ok (cs_box s) -> good (cs_box s) ->
    (forall i, In i idx -> exists v, nth_error (bvars (cs_box s)) i = Some v /\ is_int_type (vty v) = true) ->
    (forall j, In j T -> has_int (b_get (cs_box s) j)) -> R (prune_int idx s) ->
    b_empty (cs_box (prune_int idx s)) = false /\ good (cs_box (prune_int idx s)) /\ forall j, In j (T ++ idx) -> has_int (b_get (cs_box (prune_int idx s)) j).
  Proof.
    induction idx as [|i idx IH]; intros s T K G Hi HT; cbn [prune_int].
    - intros _. split; [apply full_nonempty; auto; apply G|]. split; auto. intros j Hj. rewrite app_nil_r in Hj. auto.
    - destruct (Hi i (or_introl eq_refl)) as (v & Hv & Ht). assert (Hi' : forall j, In j idx -> exists v, nth_error (bvars (cs_box s)) j = Some v /\ is_int_type (vty v) = true) by (intros; apply Hi; right; auto).
      pose proof (full_get _ _ _ K (proj1 G) Hv) as Ne. destruct (b_get (cs_box s) i) as [|l u] eqn:Eg; [discriminate|].
      assert (Kg : i_ok (IV l u)) by (rewrite <- Eg; apply box_ok_get; auto).
      assert (Hsplit : forall s1, box_ok (cs_box s1) -> bvars (cs_box s1) = bvars (cs_box s) -> good (cs_box s1) -> (forall j, In j T -> has_int (b_get (cs_box s1) j)) -> has_int (b_get (cs_box s1) i) ->
        R (prune_int idx s1) ->  b_empty (cs_box (prune_int idx s1)) = false /\ good (cs_box (prune_int idx s1)) /\ forall j, In j (T ++ i :: idx) -> has_int (b_get (cs_box (prune_int idx s1)) j)).
      { intros s1 K1 E1 G1 T1 I1 R1. destruct (IH s1 (T ++ [i]) K1 G1) as (A & B & C); auto.
        - rewrite E1. auto.
        - intros j Hj. apply in_app_or in Hj. destruct Hj as [Hj|[<-|[]]]; auto.
        - split; auto. split; auto. intros j Hj. apply C. rewrite <- app_assoc. exact Hj. }
      destruct (negb (is_integer l) || negb (is_integer u)) eqn:En.
      + destruct (dle (dceil l) (dfloor u)) eqn:El.
        * apply Hsplit; cbn [cs_with_out cs_with_box cs_box]; auto.
          -- apply b_set_ok; auto. apply mk_ival_ok.
          -- split; [apply b_set_full; [apply G|apply has_int_nonempty, round_has_int; auto]|].
             intros j w Hj Hw. destruct (Nat.eq_dec i j) as [<-|N].
             ++ rewrite b_get_set_eq by (eapply box_ok_len; eauto). cbn [b_set bvars] in Hj. rewrite Hv in Hj. injection Hj as <-.
                pose proof (proj2 G i v Hv Hw) as Hm. rewrite Eg in Hm. destruct (int_type_isint _ _ Ht (Hwt v)) as [z Ez]. rewrite Ez in *. apply int_round_mem; auto.
             ++ rewrite b_get_set_ne by auto. apply G; auto.
          -- intros j Hj. destruct (Nat.eq_dec i j) as [<-|N]; [rewrite b_get_set_eq by (eapply box_ok_len; eauto); apply round_has_int; auto|rewrite b_get_set_ne by auto; auto].
          -- rewrite b_get_set_eq by (eapply box_ok_len; eauto). apply round_has_int; auto.
        * rewrite Hv. intros [_ HW]. exfalso. cbn [cs_with_out add_witness cs_with_box cs_wit cs_box] in HW.
          assert (X : In v W). { apply HW. destruct (mem_var v (cs_wit s)) eqn:Em; [apply mem_var_In; auto|apply in_or_app; right; left; auto]. }
          pose proof (proj2 G i v Hv (V_wit v X)) as Hm. rewrite Eg in Hm. destruct (int_type_isint _ _ Ht (Hwt v)) as [z Ez]. rewrite Ez in *.
          destruct (int_round_mem _ _ _ Kg Hm). congruence.
      + apply orb_false_iff in En. destruct En as [En _]. apply negb_false_iff in En. intros HR.
        destruct (Hsplit s) as (A & B & C); auto. rewrite Eg. eapply integer_has_int; eauto.
  Qed.

  (** *** Loops *)
  Section Loops.
    Variable pr : contractor -> cstat -> option cstat.
    Variable vars : list var.
    Hypothesis Hk : forall c s s', box_ok (cs_box s) -> bvars (cs_box s) = vars -> c_ok M D Orc vars c -> pr c s = Some s' -> keeps (c_sem M D c) s s'.
    Hypothesis Hg : forall c s s', box_ok (cs_box s) -> bvars (cs_box s) = vars -> c_ok M D Orc vars c -> c_plain c -> good (cs_box s) -> pr c s = Some s' -> R s' -> good (cs_box s').
    Notation okc := (fun c => c_ok M D Orc vars c /\ c_plain c).

    Lemma okc_ok cs : Forall okc cs -> Forall (c_ok M D Orc vars) cs.
    Proof. intros H. apply Forall_forall. intros x Hx. rewrite Forall_forall in H. apply (H x Hx). Qed.
    Lemma seq_run_good cs : forall s s', box_ok (cs_box s) -> bvars (cs_box s) = vars -> Forall okc cs -> good (cs_box s) ->
      seq_run pr cs s = Some s' -> R s' -> good (cs_box s').
    Proof.
      induction cs as [|c cs IH]; intros s s' K Ev F G; cbn [seq_run]; [intros [= <-]; auto|].
      destruct (Forall_inv F) as [Oc Pc]; assert (F' := Forall_inv_tail F). destruct (pr c s) as [s1|] eqn:E1; cbn [bind]; [|discriminate].
      pose proof (Hk _ _ _ K Ev Oc E1) as S1. destruct (b_empty (cs_box s1)).
      - intros [= <-] HR. apply (Hg c s); auto.
      - intros E2 HR. assert (V1 : bvars (cs_box s1) = vars) by (rewrite (k_vars _ _ _ S1); auto). assert (K1 : box_ok (cs_box s1)) by apply S1.
        apply (IH s1); auto. apply (Hg c s); auto. eapply R_keeps; [|exact HR].
        exact (seq_run_keeps M D Orc pr vars Hk _ _ _ K1 V1 (okc_ok _ F') E2).
    Qed.
    Lemma fix_loop_good n cs : forall s s', box_ok (cs_box s) -> bvars (cs_box s) = vars -> Forall okc cs -> good (cs_box s) ->
      fix_loop term pr n cs s = Some s' -> R s' -> good (cs_box s').
    Proof.
      induction n as [|n IH]; intros s s' K Ev F G; cbn [fix_loop]; [discriminate|].
      destruct (seq_run pr cs s) as [s1|] eqn:E1; cbn [bind]; [|discriminate].
      pose proof (seq_run_keeps M D Orc pr vars Hk _ _ _ K Ev (okc_ok _ F) E1) as S1.
      destruct (b_empty (cs_box s1)); [intros [= <-]; apply (seq_run_good cs s); auto|].
      destruct (term _ _); [intros [= <-]; apply (seq_run_good cs s); auto|]. intros E2 HR.
      assert (V1 : bvars (cs_box s1) = vars) by (rewrite (k_vars _ _ _ S1); auto). assert (K1 : box_ok (cs_box s1)) by apply S1.
      apply (IH s1); auto. apply (seq_run_good cs s); auto. eapply R_keeps; [|exact HR].
      exact (fix_loop_keeps M D Orc term pr vars Hk _ _ _ _ K1 V1 (okc_ok _ F) E2).
    Qed.
    (** After the last contractor of a round, what that contractor establishes holds. *)
    Lemma seq_run_last cs c (P : box -> Prop) : (forall s s', box_ok (cs_box s) -> bvars (cs_box s) = vars -> good (cs_box s) -> pr c s = Some s' -> R s' -> P (cs_box s')) ->
      forall s s', box_ok (cs_box s) -> bvars (cs_box s) = vars -> Forall okc (cs ++ [c]) -> good (cs_box s) ->
      seq_run pr (cs ++ [c]) s = Some s' -> R s' -> P (cs_box s').
    Proof.
      intros HP. induction cs as [|d cs IH]; intros s s' K Ev F G; cbn [seq_run app].
      - destruct (pr c s) as [s1|] eqn:E1; cbn [bind]; [|discriminate]. intros E2 HR. assert (s' = s1) as -> by (destruct (b_empty (cs_box s1)); congruence). eauto.
      - cbn [app] in F. destruct (Forall_inv F) as [Oc Pc]; assert (F' := Forall_inv_tail F). destruct (pr d s) as [s1|] eqn:E1; cbn [bind]; [|discriminate].
        pose proof (Hk _ _ _ K Ev Oc E1) as S1. assert (V1 : bvars (cs_box s1) = vars) by (rewrite (k_vars _ _ _ S1); auto). assert (K1 : box_ok (cs_box s1)) by apply S1.
        destruct (b_empty (cs_box s1)) eqn:Eb.
        + intros [= <-] HR. exfalso. assert (G1 : good (cs_box s1)) by (apply (Hg d s); auto). rewrite (full_nonempty _ K1 (proj1 G1)) in Eb. discriminate.
        + intros E2 HR. apply (IH s1); auto. apply (Hg d s); auto. eapply R_keeps; [|exact HR].
          exact (seq_run_keeps M D Orc pr vars Hk _ _ _ K1 V1 (okc_ok _ F') E2).
    Qed.
    Lemma fix_loop_last n cs c (P : box -> Prop) : (forall s s', box_ok (cs_box s) -> bvars (cs_box s) = vars -> good (cs_box s) -> pr c s = Some s' -> R s' -> P (cs_box s')) ->
      forall s s', box_ok (cs_box s) -> bvars (cs_box s) = vars -> Forall okc (cs ++ [c]) -> good (cs_box s) ->
      fix_loop term pr n (cs ++ [c]) s = Some s' -> R s' -> P (cs_box s').
    Proof.
      intros HP. induction n as [|n IH]; intros s s' K Ev F G; cbn [fix_loop]; [discriminate|].
      destruct (seq_run pr (cs ++ [c]) s) as [s1|] eqn:E1; cbn [bind]; [|discriminate].
      pose proof (seq_run_keeps M D Orc pr vars Hk _ _ _ K Ev (okc_ok _ F) E1) as S1.
      destruct (b_empty (cs_box s1)); [intros [= <-]; apply (seq_run_last cs c P HP s); auto|].
      destruct (term _ _); [intros [= <-]; apply (seq_run_last cs c P HP s); auto|]. intros E2 HR.
      assert (V1 : bvars (cs_box s1) = vars) by (rewrite (k_vars _ _ _ S1); auto). assert (K1 : box_ok (cs_box s1)) by apply S1.
      apply (IH s1); auto. apply (seq_run_good (cs ++ [c]) s); auto. eapply R_keeps; [|exact HR].
      exact (fix_loop_keeps M D Orc term pr vars Hk _ _ _ _ K1 V1 (okc_ok _ F) E2).
    Qed.

    Lemma wl_phase1_good all cs : forall s wl s' wl' e, box_ok (cs_box s) -> bvars (cs_box s) = vars -> Forall okc cs -> good (cs_box s) ->
      wl_phase1 pr all cs s wl = Some (s', wl', e) -> R s' -> good (cs_box s').
    Proof.
      induction cs as [|c cs IH]; intros s wl s' wl' e K Ev F G; cbn [wl_phase1]; [intros [= <- _ _]; auto|].
      destruct (Forall_inv F) as [Oc Pc]; assert (F' := Forall_inv_tail F). destruct (pr c (cs_with_out s bits0)) as [s1|] eqn:E1; cbn [bind]; [|discriminate].
      pose proof (Hk c (cs_with_out s bits0) s1 K Ev Oc E1) as S1. assert (V1 : bvars (cs_box s1) = vars) by (rewrite (k_vars _ _ _ S1); auto). assert (K1 : box_ok (cs_box s1)) by apply S1.
      destruct (b_empty (cs_box s1)); [intros [= <- _ _] HR; apply (Hg c (cs_with_out s bits0)); auto|].
      intros E2 HR. eapply IH; [exact K1|exact V1|exact F'| |exact E2|exact HR]. apply (Hg c (cs_with_out s bits0)); auto. eapply R_keeps; [|exact HR].
      refine (wl_phase1_keeps M D Orc pr vars Hk all cs s1 _ s' wl' e (fun rho => Forall (fun c => c_sem M D c rho) cs) K1 V1 (okc_ok _ F') _ E2).
      intros r x Hx H. rewrite Forall_forall in H. auto.
    Qed.
    Lemma wl_phase2_good n all : Forall okc all -> forall s wl k s', box_ok (cs_box s) -> bvars (cs_box s) = vars -> good (cs_box s) ->
      wl_phase2 pr n all s wl k = Some s' -> R s' -> good (cs_box s').
    Proof.
      intros F. induction n as [|n IH]; intros s wl k s' K Ev G; cbn [wl_phase2]; [discriminate|].
      destruct (nth_error all k) as [c|] eqn:Ek; [|discriminate]. cbv zeta. destruct (pr c (cs_with_out s bits0)) as [s1|] eqn:E1; cbn [bind]; [|discriminate].
      apply nth_error_In in Ek. assert (Fc := F). rewrite Forall_forall in Fc. destruct (Fc _ Ek) as [Oc Pc].
      pose proof (Hk c (cs_with_out s bits0) s1 K Ev Oc E1) as S1. assert (V1 : bvars (cs_box s1) = vars) by (rewrite (k_vars _ _ _ S1); auto). assert (K1 : box_ok (cs_box s1)) by apply S1.
      assert (G1 : R s1 -> good (cs_box s1)) by (apply (Hg c (cs_with_out s bits0)); auto).
      destruct (b_empty (cs_box s1)); [intros [= <-]; auto|]. destruct (bits_find _ _ _); [|intros [= <-]; auto].
      destruct (bits_find _ _ _); intros E2 HR; (eapply IH; [exact K1|exact V1| |exact E2|exact HR]; apply G1; eapply R_keeps; [|exact HR];
        exact (wl_phase2_keeps M D Orc pr vars Hk _ _ _ _ _ _ K1 V1 (okc_ok _ F) E2)).
    Qed.
    Lemma wl_run_good n all s s' : box_ok (cs_box s) -> bvars (cs_box s) = vars -> Forall okc all -> good (cs_box s) ->
      wl_run term pr n all s = Some s' -> R s' -> good (cs_box s').
    Proof.
      intros K Ev F G. unfold wl_run. set (todo := match cs_bp s with None => all | Some i => _ end).
      assert (It : incl todo all). { unfold todo. destruct (cs_bp s); [intros x Hx; apply filter_In in Hx; tauto|apply incl_refl]. }
      assert (Ft : Forall okc todo) by (apply Forall_forall; intros x Hx; rewrite Forall_forall in F; auto).
      destruct (wl_phase1 pr all todo s bits0) as [[[s1 wl] e]|] eqn:E1; cbn [bind]; [|discriminate].
      assert (S1 : keeps (fun rho => Forall (fun c => c_sem M D c rho) todo) s s1).
      { eapply wl_phase1_keeps; [exact Hk|exact K|exact Ev|exact (okc_ok todo Ft)| |exact E1]. intros r c Hc H. rewrite Forall_forall in H. auto. }
      assert (V1 : bvars (cs_box s1) = vars) by (rewrite (k_vars _ _ _ S1); auto). assert (K1 : box_ok (cs_box s1)) by apply S1.
      assert (G1 : R s1 -> good (cs_box s1)) by (exact (wl_phase1_good all todo s bits0 s1 wl e K Ev Ft G E1)).
      destruct e; [intros [= <-]; auto|]. destruct (bits_find _ _ _); [|intros [= <-]; auto]. destruct (term _ _); [intros [= <-]; auto|].
      intros E2 HR. eapply wl_phase2_good; [exact F|exact K1|exact V1| |exact E2|exact HR]. apply G1. eapply R_keeps; [|exact HR].
      exact (wl_phase2_keeps M D Orc pr vars Hk _ _ _ _ _ _ K1 V1 (okc_ok _ F) E2).
    Qed.
  End Loops.

  Lemma ok_plain_list vars cs : fold_right (fun c' acc => c_ok M D Orc vars c' /\ acc) True cs -> fold_right (fun c' acc => c_plain c' /\ acc) True cs ->
    Forall (fun c => c_ok M D Orc vars c /\ c_plain c) cs.
  Proof. induction cs as [|c cs IH]; cbn; intros; constructor; tauto. Qed.
  Theorem prune_good n : forall vars c s s', box_ok (cs_box s) -> bvars (cs_box s) = vars -> c_ok M D Orc vars c -> c_plain c -> good (cs_box s) ->
    prune Orc term n c s = Some s' -> R s' -> good (cs_box s').
  Proof.
    induction n as [|n IH]; intros vars c s s' K Ev Hc Hp G; cbn [prune]; [discriminate|].
    assert (Hk : forall c s s', box_ok (cs_box s) -> bvars (cs_box s) = vars -> c_ok M D Orc vars c -> prune Orc term n c s = Some s' -> keeps (c_sem M D c) s s').
    { intros c0 s0 s0' K0 <- Hc0 E0. eapply prune_keeps; eauto. }
    destruct c as [|idx|cs|f|fs|f|cs|cs|cs]; cbn [c_ok c_plain] in *.
    - intros [= <-]; auto.
    - intros [= <-] HR. apply (int_good idx s []); auto; [rewrite Ev; auto|]. intros j [].
    - exact (seq_run_good (prune Orc term n) vars Hk (IH vars) cs s s' K Ev (ok_plain_list vars cs Hc Hp) G).
    - intros [= <-] HR. apply fwd_good; auto. rewrite Ev. tauto.
    - contradiction.
    - intros E1 HR. eapply forall_good; eauto. rewrite Ev. tauto.
    - exact (fix_loop_good (prune Orc term n) vars Hk (IH vars) n cs s s' K Ev (ok_plain_list vars cs Hc Hp) G).
    - exact (wl_run_good (prune Orc term n) vars Hk (IH vars) n cs s s' K Ev (ok_plain_list vars cs Hc Hp) G).
    - contradiction.
  Qed.
End Expl.
