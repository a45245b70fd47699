From Coq Require Import ZArith Reals Lra Lia List Bool Arith.
From Flocq Require Import Core.Core IEEE754.BinarySingleNaN.
From Verif Require Import Scoped Context ExprAlg Forall Dbl DblProofs Syntax Sem Interval IntervalProofs MathConv MathConvProofs IEval Contr ContrProofs Icp IcpProofs CtxSat SpecWork StopProofs FilterProofs SpecBranch.
Import ListNotations.
#[local] Opaque dZ.

Lemma diam_nn i : i_ok i -> is_nan (i_diam i) = false.
Proof. intros K. destruct i as [|l u]; [reflexivity|]. destruct (diam_cases l u K) as [(F & _)|E]; [exact (fin_nn _ F)|rewrite E; reflexivity]. Qed.
Lemma bisect_diam mid i : i_ok i -> i_bisectable mid i = true -> dgt (i_diam i) dzero = true.
Proof.
  intros K B. destruct i as [|l u]; [discriminate|]. cbn [i_bisectable] in B. apply andb_true_iff in B. destruct B as [B1 B2].
  destruct (diam_cases l u K) as [(F & Fl & Fu & E)|E]; [|rewrite E; reflexivity].
  pose proof (diam_pos l u K F) as P. destruct (Rlt_bool_spec 0 (B2R (i_diam (IV l u)))) as [L|L]; cbn [negb] in P.
  - unfold dgt. change (Bltb dzero (i_diam (IV l u))) with (dlt dzero (i_diam (IV l u))). rewrite dlt_dle; [|reflexivity|exact (fin_nn _ F)].
    apply negb_true_iff. destruct (dle (i_diam (IV l u)) dzero) eqn:D; [|reflexivity]. apply dle_true in D. rewrite (finite_d2e _ F) in D. change (d2e dzero) with (Fin 0) in D. cbn [ext_le] in D. lra.
  - exfalso. cbn [i_degenerated] in P. assert (Nm : is_nan (mid l u) = false). { destruct (mid l u); try reflexivity; exfalso; revert B1; clear; destruct l as [|[]| |]; discriminate. }
    rewrite dlt_dle in B1 by (auto; exact (fin_nn _ Fl)). rewrite dlt_dle in B2 by (auto; exact (fin_nn _ Fu)).
    apply negb_true_iff in B1. apply negb_true_iff in B2. apply deq_spec in P; [|exact (fin_nn _ Fl)|exact (fin_nn _ Fu)].
    destruct (ext_le_total (d2e (mid l u)) (d2e l)) as [X|X].
    + apply dle_spec in X; [congruence|exact Nm|exact (fin_nn _ Fl)].
    + rewrite P in X. apply dle_spec in X; [congruence|exact (fin_nn _ Fu)|exact Nm].
Qed.
Lemma dgt_not a b : is_nan a = false -> is_nan b = false -> dgt a b = false -> dle a b = true.
Proof. intros A B H. unfold dgt in H. change (dlt b a = false) in H. rewrite dlt_dle in H by assumption. apply negb_false_iff in H. exact H. Qed.
Lemma dle_dlt_trans a b c : is_nan a = false -> is_nan b = false -> is_nan c = false -> dle a b = true -> dlt b c = true -> dlt a c = true.
Proof.
  intros A B C H1 H2. rewrite dlt_dle in * by assumption. apply negb_true_iff in H2. apply negb_true_iff. destruct (dle c a) eqn:E; [|reflexivity].
  rewrite <- H2. symmetry. apply dle_spec; [assumption|assumption|]. exact (ext_le_trans _ _ _ (dle_true _ _ E) (dle_true _ _ H1)).
Qed.

Section Loop.
  Variables (mid : dbl -> dbl -> dbl) (b : box).
  Hypothesis K : box_ok b.
  Definition good (P : nat -> bool) (m : nat) (e : nat) : Prop := e < m /\ P e = true /\ i_bisectable mid (b_get b e) = true.
  (** the state of the search after the first [m] dimensions *)
  Definition inv (P : nat -> bool) (m : nat) (best : dbl * option nat) : Prop :=
    match best with
    | (w, None) => w = dzero /\ forall e, ~ good P m e
    | (w, Some d) => w = i_diam (b_get b d) /\ widest (good P m) b d
    end.
  Lemma inv_step P m best : inv P m best ->
    inv P (S m) (if P m then if dgt (i_diam (b_get b m)) (fst best) && i_bisectable mid (b_get b m) then (i_diam (b_get b m), Some m) else best else best).
  Proof.
    intros H. assert (N : forall e, is_nan (i_diam (b_get b e)) = false) by (intros e; apply diam_nn, box_ok_get; exact K).
    assert (Old : forall e, good P (S m) e -> good P m e \/ (e = m /\ P m = true /\ i_bisectable mid (b_get b m) = true)).
    { intros e (A & B & C). destruct (Nat.eq_dec e m) as [->|X]; [right; auto|left; split; [lia|auto]]. }
    assert (Keep : (P m = true -> i_bisectable mid (b_get b m) = true -> dgt (i_diam (b_get b m)) (fst best) = false) -> inv P (S m) best).
    { intros Hm. destruct best as [w [d|]]; cbn [inv fst] in *; destruct H as [Hw H]; (split; [exact Hw|]).
      - destruct H as [(G1 & G2 & G3) H]. split; [split; [lia|auto]|]. intros e Ge. destruct (Old e Ge) as [X|(-> & Y & Z)]; [exact (H e X)|]. specialize (Hm Y Z). rewrite Hw in Hm.
        split; [apply dgt_not; auto|lia].
      - intros e Ge. destruct (Old e Ge) as [X|(-> & Y & Z)]; [exact (H e X)|]. specialize (Hm Y Z). rewrite Hw in Hm.
        rewrite (bisect_diam mid (b_get b m) (box_ok_get b m K) Z) in Hm. discriminate. }
    destruct (P m) eqn:Pm; [|apply Keep; discriminate].
    destruct (i_bisectable mid (b_get b m)) eqn:Bm; [|rewrite andb_false_r; apply Keep; discriminate].
    rewrite andb_true_r. destruct (dgt (i_diam (b_get b m)) (fst best)) eqn:Dm; [|apply Keep; auto].
    cbn [inv]. split; [reflexivity|]. split; [split; [lia|auto]|]. intros e Ge. destruct (Old e Ge) as [X|(-> & _ & _)].
    2: { split; [apply dle_spec; auto; apply ext_le_refl|lia]. }
    destruct best as [w [d|]]; cbn [inv fst] in *; destruct H as [Hw H]; [|destruct (H e X)]. destruct H as [_ H]. destruct (H e X) as [A _]. rewrite Hw in Dm.
    assert (L : dlt (i_diam (b_get b e)) (i_diam (b_get b m)) = true) by (apply dle_dlt_trans with (i_diam (b_get b d)); auto).
    split; [|auto]. rewrite dlt_dle in L by auto. apply negb_true_iff in L. destruct (ext_le_total (d2e (i_diam (b_get b e))) (d2e (i_diam (b_get b m)))) as [Y|Y]; [apply dle_spec; auto|apply dle_spec in Y; auto; congruence].
  Qed.
  Lemma fmd_inv P : forall n i best, inv P i best -> inv P (i + n) (fmd_loop mid b P i n best).
  Proof.
    induction n as [|n IH]; intros i best H; cbn [fmd_loop]; [rewrite Nat.add_0_r; exact H|]. rewrite <- Nat.add_succ_comm. apply IH. apply inv_step. exact H.
  Qed.
  Lemma find_max P : inv P (b_size b) (find_max_diam mid b P).
  Proof. apply (fmd_inv P (b_size b) 0 (dzero, None)). split; [reflexivity|]. intros e (A & _). lia. Qed.
  Lemma maxdiam_inv : forall n vals i best, length vals >= n -> (forall j, nth j vals IEmpty = b_get b (i + j)) -> inv (fun _ => true) i best -> inv (fun _ => true) (i + n) (maxdiam_loop mid vals i n best).
  Proof.
    induction n as [|n IH]; intros vals i best L E H; [rewrite Nat.add_0_r; destruct vals; exact H|].
    destruct vals as [|x vals]; [cbn in L; lia|]. cbn [maxdiam_loop]. rewrite <- Nat.add_succ_comm. pose proof (E 0%nat) as E0. cbn [nth] in E0. rewrite Nat.add_0_r in E0. subst x.
    apply IH; [cbn in L; lia|intros j; specialize (E (S j)); cbn [nth] in E; rewrite E; f_equal; lia|]. exact (inv_step (fun _ => true) i best H).
  Qed.
  Lemma box_maxdiam : inv (fun _ => true) (b_size b) (b_maxdiam mid b).
  Proof.
    apply (maxdiam_inv (b_size b) (bvals b) 0 (dzero, None)); [destruct K as (_ & X & _); unfold b_size; rewrite X; lia|reflexivity|].
    split; [reflexivity|]. intros e (A & _). lia.
  Qed.
End Loop.

Section Step.
  Variables (pr : cstat -> option cstat) (ev : formula -> box -> option (etype * ival)) (mid : dbl -> dbl -> dbl) (precision : dbl).
  Lemma eval_loop_bits s : forall gs (act : bits), (forall f, In f gs -> exists t i, ev f (cs_box s) = Some (t, i) /\ t <> UNSAT) ->
    exists act', eval_loop ev precision gs s act = EBits act' /\
      forall d, act' d = true <-> act d = true \/ exists f v, asks ev precision gs (cs_box s) f /\ nth_error (bvars (cs_box s)) d = Some v /\ In v (fvF f).
  Proof.
    induction gs as [|f gs IH]; intros act H; cbn [eval_loop].
    - exists act. split; [reflexivity|]. intros d. split; [auto|]. intros [X|(f & v & [[] _] & _)]. exact X.
    - destruct (H f (or_introl eq_refl)) as (t & i & Ef & Ht). rewrite Ef.
      assert (Hg : forall f, In f gs -> exists t i, ev f (cs_box s) = Some (t, i) /\ t <> UNSAT) by (intros g Hg; apply H; right; exact Hg).
      assert (Up : forall g, asks ev precision gs (cs_box s) g -> asks ev precision (f :: gs) (cs_box s) g) by (intros g (A & B); split; [right; exact A|exact B]).
      destruct t; [|destruct (Ht eq_refl)|].
      + destruct (IH act Hg) as (act' & E & Hd). exists act'. split; [exact E|]. intros d. rewrite Hd. split; (intros [X|(g & v & A & B)]; [left; exact X|right]).
        * exists g, v. split; [apply Up; exact A|exact B].
        * exists g, v. split; [|exact B]. destruct A as ([<-|A1] & A2 & j & A3 & A4); [rewrite Ef in A3; discriminate|]. split; [exact A1|]. split; [exact A2|]. exists j. auto.
      + set (act1 := if wide precision f i then bits_or act (uses (bvars (cs_box s)) f) else act).
        destruct (IH act1 Hg) as (act' & E & Hd). exists act'. split; [exact E|]. intros d. rewrite Hd.
        assert (A1 : act1 d = true <-> act d = true \/ (asks ev precision (f :: gs) (cs_box s) f /\ exists v, nth_error (bvars (cs_box s)) d = Some v /\ In v (fvF f)) /\ wide precision f i = true).
        { unfold act1. destruct (wide precision f i) eqn:Ew; [|split; [auto|intros [X|[_ X]]; [exact X|discriminate]]].
          unfold bits_or. rewrite orb_true_iff. unfold wide in Ew. apply andb_true_iff in Ew. destruct Ew as [W1 W2]. apply negb_true_iff in W2.
          assert (As : asks ev precision (f :: gs) (cs_box s) f) by (split; [left; reflexivity|split; [exact W2|exists i; auto]]).
          unfold uses. destruct (nth_error (bvars (cs_box s)) d) as [v|].
          - rewrite mem_var_In. split; (intros [X|X]; [left; exact X|right]); [split; [split; [exact As|exists v; auto]|reflexivity]|]. destruct X as [[_ (v' & X1 & X2)] _]. congruence.
          - split; (intros [X|X]; [left; exact X|]); [discriminate X|]. destruct X as [[_ (v' & X1 & X2)] _]. discriminate X1. }
        rewrite A1. split.
        * intros [[X|[[X (v & Y)] _]]|(g & v & A & B)]; [left; exact X|right; exists f, v; auto|right; exists g, v; split; [apply Up; exact A|exact B]].
        * intros [X|(g & v & A & B)]; [left; left; exact X|]. destruct A as ([<-|G1] & A2 & j & A3 & A4).
          -- left. right. assert (j = i) as -> by congruence. split; [split; [split; [left; reflexivity|split; [exact A2|exists i; auto]]|exists v; exact B]|]. unfold wide. rewrite A4, A2. reflexivity.
          -- right. exists g, v. split; [|exact B]. split; [exact G1|]. split; [exact A2|]. exists j. auto.
  Qed.
End Step.

Section Top.
  Variables (pr : cstat -> option cstat) (ev : formula -> box -> option (etype * ival)) (mid : dbl -> dbl -> dbl) (precision : dbl) (fs : list formula).
  Let splittable (b : box) (d : nat) : Prop := candidate ev precision fs b d /\ i_bisectable mid (b_get b d) = true.
  Theorem step_cases s s1 : pr s = Some s1 -> box_ok (cs_box s1) -> b_empty (cs_box s1) = false -> undecided ev fs (cs_box s1) ->
    (icp_step pr ev (branch_largest mid) precision fs s = Some (Accept s1) /\ forall d, ~ splittable (cs_box s1) d) \/
    (exists d, widest (splittable (cs_box s1)) (cs_box s1) d /\
       icp_step pr ev (branch_largest mid) precision fs s = match b_bisect mid (cs_box s1) d with Some (l, r) => Some (Split d l r s1) | None => None end).
  Proof.
    intros Ep K E U. unfold icp_step. rewrite Ep. cbn [bind]. rewrite E. unfold eval_box.
    destruct (eval_loop_bits ev precision s1 fs bits0 U) as (act & Ea & Hact). rewrite Ea.
    assert (Hc : forall d, good mid (cs_box s1) act (b_size (cs_box s1)) d <-> splittable (cs_box s1) d).
    { intros d. unfold good, splittable, candidate. rewrite Hact. split.
      - intros (A & [B|B] & C); [discriminate B|]. split; [exact B|exact C].
      - intros ((f & v & A & B & B') & C). split; [apply nth_error_Some; congruence|]. split; [right; exists f, v; auto|exact C]. }
    pose proof (find_max mid (cs_box s1) K act) as Iv. unfold branch_largest. destruct (find_max_diam mid (cs_box s1) act) as [w [d|]] eqn:Ef; cbn [inv snd] in *.
    - right. exists d. destruct Iv as [_ [G Hw]]. split.
      + split; [apply Hc; exact G|]. intros e He. apply Hw. apply Hc. exact He.
      + assert (Nn : bits_none (b_size (cs_box s1)) act = false).
        { unfold bits_none. destruct (bits_find act 0 (b_size (cs_box s1))) eqn:Eb; [reflexivity|]. destruct G as (G1 & G2 & _). rewrite (proj1 (bits_find_none _ _ _) Eb d) in G2 by lia. discriminate. }
        rewrite Nn. destruct (b_bisect mid (cs_box s1) d) as [[l r]|]; reflexivity.
    - left. split; [destruct (bits_none (b_size (cs_box s1)) act); reflexivity|]. intros d Hd. apply Hc in Hd. exact (proj2 Iv d Hd).
  Qed.
  (** a constraint that evaluates to UNSAT rules the box out *)
  Theorem step_unsat s s1 : pr s = Some s1 -> b_empty (cs_box s1) = false -> (forall f, In f fs -> ev f (cs_box s1) <> None) ->
    (exists f i, In f fs /\ ev f (cs_box s1) = Some (UNSAT, i)) ->
    exists s2, icp_step pr ev (branch_largest mid) precision fs s = Some (Infeasible s2) /\
      exists f, In f fs /\ In f (cs_used s2) /\ exists i, ev f (cs_box s1) = Some (UNSAT, i).
  Proof.
    intros Ep E Nt Hu. unfold icp_step. rewrite Ep. cbn [bind]. rewrite E. unfold eval_box.
    assert (X : forall act, exists s2, eval_loop ev precision fs s1 act = EUnsat s2 /\ exists f, In f fs /\ In f (cs_used s2) /\ exists i, ev f (cs_box s1) = Some (UNSAT, i)).
    { clear Ep. induction fs as [|f gs IH]; intros act; [destruct Hu as (f & i & [] & _)|]. cbn [eval_loop].
      destruct (ev f (cs_box s1)) as [[t i]|] eqn:Ef; [|destruct (Nt f (or_introl eq_refl) Ef)].
      assert (Rec : t <> UNSAT -> forall act, exists s2, eval_loop ev precision gs s1 act = EUnsat s2 /\ exists f0, In f0 (f :: gs) /\ In f0 (cs_used s2) /\ exists j, ev f0 (cs_box s1) = Some (UNSAT, j)).
      { intros Ht act0. destruct (IH (fun g Hg => Nt g (or_intror Hg))) with (act := act0) as (s2 & A & g & B & C).
        - destruct Hu as (g & j & [<-|Hg] & Eg); [congruence|]. exists g, j. auto.
        - exists s2. split; [exact A|]. exists g. split; [right; exact B|exact C]. }
      destruct t; [apply Rec; discriminate| |apply Rec; discriminate].
      eexists. split; [reflexivity|]. exists f. split; [left; reflexivity|]. split; [|exists i; exact Ef].
      unfold add_used. cbn [cs_used]. match goal with |- In f (if ?c then ?u else ?u ++ [f]) => destruct c eqn:Em end; [|apply in_or_app; right; left; reflexivity].
      apply mem_form_In. exact Em. }
    destruct (X bits0) as (s2 & -> & Y). exists s2. split; [reflexivity|exact Y].
  Qed.
End Top.

(** ** The other choices *)
Section Rest.
  Lemma maxdiam_spec mid b : box_ok b ->
    match b_maxdiam mid b with
    | (w, Some d) => w = i_diam (b_get b d) /\ widest (fun e => e < b_size b /\ i_bisectable mid (b_get b e) = true) b d
    | (w, None) => w = dzero /\ forall e, e < b_size b -> i_bisectable mid (b_get b e) = false
    end.
  Proof.
    intros K. pose proof (box_maxdiam mid b K) as H. destruct (b_maxdiam mid b) as [w [d|]]; cbn [inv] in H; destruct H as [Hw H]; (split; [exact Hw|]).
    - destruct H as [(A & _ & B) H]. split; [auto|]. intros e [E1 E2]. apply H. split; auto.
    - intros e He. destruct (i_bisectable mid (b_get b e)) eqn:B; [|reflexivity]. destruct (H e). split; auto.
  Qed.
  Lemma bloat_spec c : is_finite c = true -> exists l u, bloat_point c = IV l u /\ i_ok (IV l u) /\ ext_lt (d2e l) (d2e c) /\ ext_lt (d2e c) (d2e u) /\
    forall d, is_finite d = true -> imem (B2R d) (IV l u) -> d2e d = d2e l \/ B2R d = B2R c \/ d2e d = d2e u.
  Proof.
    intros F. pose proof (fin_nn _ F) as N. unfold bloat_point. assert (A : dnextafter c dninf = Bpred c /\ dnextafter c dpinf = Bsucc c).
    { unfold dnextafter. rewrite N. destruct c as [s|s| |s m e H]; try discriminate F; split; reflexivity. }
    destruct A as [-> ->]. pose proof (Bpred_lt c F) as L. pose proof (Bsucc_gt c F) as U. pose proof (Bpred_not_nan c F) as NL. pose proof (Bsucc_not_nan c F) as NU.
    assert (Le : dle (Bpred c) (Bsucc c) = true). { apply dle_spec; auto. apply ext_le_trans with (d2e c); apply ext_lt_le; assumption. }
    assert (D1 : deq (Bpred c) dpinf = false). { destruct (Bpred c) as [|[]| |] eqn:E; try reflexivity. exfalso. apply L. cbn. destruct (d2e c); exact Logic.I. }
    assert (D2 : deq (Bsucc c) dninf = false). { destruct (Bsucc c) as [|[]| |] eqn:E; try reflexivity. exfalso. apply U. cbn. exact Logic.I. }
    exists (Bpred c), (Bsucc c). split; [unfold mk_ival; rewrite Le, D1, D2; reflexivity|]. split; [split; [exact Le|split; assumption]|]. split; [exact L|]. split; [exact U|].
    intros d Fd [H1 H2]. pose proof (fin_nn _ Fd) as Nd. destruct (Rtotal_order (B2R d) (B2R c)) as [X|[X|X]]; [left|right; left; exact X|right; right].
    - apply ext_le_antisym; [|rewrite (finite_d2e _ Fd); exact H1]. apply (Bpred_greatest c d); auto. rewrite (finite_d2e _ Fd), (finite_d2e _ F). intros C. cbn [ext_le] in C. lra.
    - apply ext_le_antisym; [rewrite (finite_d2e _ Fd); exact H2|]. apply (Bsucc_least c d); auto. rewrite (finite_d2e _ Fd), (finite_d2e _ F). intros C. cbn [ext_le] in C. lra.
  Qed.

  Lemma numeric_bisects mid b d : box_ok b -> (forall v, In v (bvars b) -> vty v <> BOOLEAN) -> d < b_size b -> i_bisectable mid (b_get b d) = true ->
    exists l r, b_bisect mid b d = Some (l, r).
  Proof.
    intros K Nb Hd B. unfold b_bisect. destruct (nth_error (bvars b) d) as [v|] eqn:Ev; [|apply nth_error_None in Ev; unfold b_size in Hd; lia].
    destruct (b_get b d) as [|x y]; [discriminate B|]. rewrite B. pose proof (Nb v (nth_error_In _ _ Ev)) as T.
    destruct (vty v); [| | |congruence]; match goal with |- context [let (_, _) := ?pp in _] => destruct pp as [p q] end; eauto.
  Qed.

  Lemma fe_diam_spec ev m : forall fs acc d, is_nan acc = false -> fe_diam ev fs m acc = Some d ->
    is_nan d = false /\ (d = acc \/ exists g, In g fs /\ dis_size ev g m = Some d) /\ dle acc d = true /\
    forall g, In g fs -> exists x, dis_size ev g m = Some x /\ dgt x d = false.
  Proof.
    induction fs as [|f fs IH]; intros acc d Na H; cbn [fe_diam] in H.
    - assert (d = acc) by congruence. subst d. split; [exact Na|]. split; [auto|]. split; [apply dle_spec; auto; apply ext_le_refl|intros g []].
    - destruct (ev f m) as [[t i]|] eqn:Ef; cbn [bind] in H; [|discriminate H]. cbn [fst snd] in H.
      set (x := match t with UNSAT => i_mag i | _ => i_diam i end) in H.
      assert (Ex : dis_size ev f m = Some x) by (unfold dis_size, x; rewrite Ef; destruct t; reflexivity).
      destruct (dgt x acc) eqn:Eg.
      + assert (Nx : is_nan x = false) by (unfold dgt, dlt in Eg; destruct x, acc; try reflexivity; try discriminate Eg).
        destruct (IH x d Nx H) as (Nd & A & B & C). apply dle_spec in B; auto. split; [exact Nd|]. split.
        { right. destruct A as [->|(g & G1 & G2)]; [exists f; split; [left; reflexivity|exact Ex]|exists g; split; [right; exact G1|exact G2]]. }
        apply dlt_spec in Eg; auto. split; [apply dle_spec; auto; apply ext_le_trans with (d2e x); auto; apply ext_lt_le; exact Eg|].
        intros g [<-|G]; [|apply C; exact G]. exists x. split; [exact Ex|]. destruct (dgt x d) eqn:E; [|reflexivity]. apply dlt_spec in E; auto. destruct (E B).
      + destruct (IH acc d Na H) as (Nd & A & B & C). split; [exact Nd|]. split.
        { destruct A as [->|(g & G1 & G2)]; [left; reflexivity|right; exists g; split; [right; exact G1|exact G2]]. }
        split; [exact B|]. intros g [<-|G]; [|apply C; exact G]. exists x. split; [exact Ex|].
        destruct (dgt x d) eqn:E; [|reflexivity]. exfalso. apply dle_spec in B; auto.
        assert (Nx : is_nan x = false) by (unfold dgt, dlt in E; destruct x, d; try reflexivity; try discriminate E).
        assert (Y : dgt x acc = true). { apply dlt_spec in E; auto. apply dlt_spec; auto. intros Z. apply E. apply ext_le_trans with (d2e acc); auto. }
        congruence.
  Qed.

  (** folding a power of constants *)
  Lemma pow_throws fpow v1 v2 : mk_pow fpow (EConst v1) (EConst v2) = (Throw, []) <->
    is_finite v1 = true /\ (B2R v1 < 0)%R /\ is_finite v2 = true /\ ~ exists z : Z, (-2147483648 <= z <= 2147483647)%Z /\ B2R v2 = IZR z.
  Proof.
    unfold mk_pow, pow_domain. destruct (is_finite v1) eqn:F1; cbn [negb andb]; [|split; [discriminate|intros [A _]; discriminate A]].
    assert (L : dlt v1 dzero = true <-> (B2R v1 < 0)%R).
    { rewrite dlt_spec; [|apply fin_nn; exact F1|reflexivity]. rewrite (finite_d2e _ F1). change (d2e dzero) with (Fin 0). unfold ext_lt. cbn [ext_le]. lra. }
    destruct (dlt v1 dzero) eqn:E1; cbn [negb andb]; [|split; [discriminate|intros (_ & A & _); apply L in A; discriminate A]].
    destruct (is_finite v2) eqn:F2; cbn [negb andb]; [|split; [discriminate|intros (_ & _ & A & _); discriminate A]].
    pose proof (is_integer_spec v2) as I2. destruct (is_integer v2); cbn [negb].
    - split; [discriminate|]. intros (_ & _ & _ & A). destruct A. apply I2. reflexivity.
    - split; [|reflexivity]. intros _. split; [reflexivity|]. split; [apply L; reflexivity|]. split; [reflexivity|]. intros A. assert (false = true) by (apply I2; auto). discriminate.
  Qed.

  (** comparing scoped vectors *)
  Lemma sv_less_true (T : Type) (ltb : T -> T -> bool) : forall a b, sv_less ltb a b = Some true <->
    exists k x y, nth_error a k = Some x /\ nth_error b k = Some y /\ ltb x y = true.
  Proof.
    induction a as [|x a IH]; intros b; cbn [sv_less].
    - split; [discriminate|]. intros ([|k] & x & y & A & _); discriminate A.
    - destruct b as [|y b].
      + split; [discriminate|]. intros ([|k] & u & w & _ & A & _); discriminate A.
      + destruct (ltb x y) eqn:E.
        * split; [|reflexivity]. intros _. exists 0, x, y. auto.
        * rewrite IH. split; [intros (k & u & w & A); exists (S k), u, w; exact A|]. intros ([|k] & u & w & A & B & C); [cbn in A, B; congruence|exists k, u, w; auto].
  Qed.
  Lemma sv_less_false (T : Type) (ltb : T -> T -> bool) : forall a b, sv_less ltb a b = Some false <->
    length a <= length b /\ forall k x y, nth_error a k = Some x -> nth_error b k = Some y -> ltb x y = false.
  Proof.
    induction a as [|x a IH]; intros b; cbn [sv_less].
    - split; [|reflexivity]. intros _. split; [cbn; lia|]. intros [|k] x y A; discriminate A.
    - destruct b as [|y b]; [split; [discriminate|cbn; lia]|]. destruct (ltb x y) eqn:E.
      + split; [discriminate|]. intros [_ A]. rewrite (A 0 x y eq_refl eq_refl) in E. discriminate E.
      + rewrite IH. cbn [length]. split; intros [A B]; (split; [lia|]).
        * intros [|k] u w; cbn [nth_error]; [intros; congruence|apply B].
        * intros k u w H1 H2. exact (B (S k) u w H1 H2).
  Qed.

  Theorem step_numeric pr ev mid precision fs s s1 : pr s = Some s1 -> box_ok (cs_box s1) -> b_empty (cs_box s1) = false -> undecided ev fs (cs_box s1) ->
    (forall v, In v (bvars (cs_box s1)) -> vty v <> BOOLEAN) ->
    let splittable d := candidate ev precision fs (cs_box s1) d /\ i_bisectable mid (b_get (cs_box s1) d) = true in
    (icp_step pr ev (branch_largest mid) precision fs s = Some (Accept s1) /\ forall d, ~ splittable d) \/
    (exists d l r, widest splittable (cs_box s1) d /\ b_bisect mid (cs_box s1) d = Some (l, r) /\
       icp_step pr ev (branch_largest mid) precision fs s = Some (Split d l r s1)).
  Proof.
    intros Ep K E U Nb splittable. destruct (step_cases pr ev mid precision fs s s1 Ep K E U) as [A|(d & W & A)]; [left; exact A|]. right.
    destruct (numeric_bisects mid (cs_box s1) d K Nb) as (l & r & Eb); [| |exists d, l, r; rewrite Eb in A; auto].
    - destruct W as [[(f & v & _ & X & _) _] _]. apply nth_error_Some. congruence.
    - exact (proj2 (proj1 W)).
  Qed.
  Lemma fe_eval_width fold K pico T mid precision ev f fuel b c c' t i : fe_eval fold K pico T mid precision ev f fuel b c = Some (c', (t, i)) ->
    (t = VALID /\ i = mk_ival dzero dzero) \/
    (t = UNKNOWN /\ exists m d, cx_run fold K pico T mid precision (inner_query b fuel) c = Some (c', [Some m]) /\ i = mk_ival dzero d /\
       (forall g, In g (fe_disjuncts f) -> exists x, dis_size ev g (overwrite b m) = Some x /\ dgt x d = false) /\
       (d = dzero \/ exists g, In g (fe_disjuncts f) /\ dis_size ev g (overwrite b m) = Some d)).
  Proof.
    unfold fe_eval. destruct (cx_run fold K pico T mid precision (inner_query b fuel) c) as [[c1 [|[m|] [|? ?]]]|] eqn:Er; try discriminate.
    - destruct (fe_diam ev (fe_disjuncts f) (overwrite b m) dzero) as [d|] eqn:Ed; [|discriminate]. cbn [bind]. intros H.
      assert (c1 = c' /\ UNKNOWN = t /\ mk_ival dzero d = i) as (<- & <- & <-) by (split; [|split]; congruence). right. split; [reflexivity|].
      destruct (fe_diam_spec ev (overwrite b m) (fe_disjuncts f) dzero d eq_refl Ed) as (_ & A & _ & B). exists m, d. auto.
    - intros H. left. split; congruence.
  Qed.
End Rest.
