(** * Optimization encodes optimality *)
From Coq Require Import ZArith Reals Lra Lia List Bool Sorting.Sorted Sorting.Permutation Classical.
From Flocq Require Import IEEE754.BinarySingleNaN.
From Verif Require Import Dbl DblProofs Syntax Sem SemProofs FormulaCons FormulaConsProofs Interval IntervalProofs IEval IEvalProofs StdInterp MathConv Order
  ExprAlg SpecAlg ExprAlgProofs Subst SubstProofs AlgTop SpecIte IteElimProofs SmtOcc VarSet VarSetProofs Scoped Context Smt2 SpecMin Minim.
Import ListNotations.
Local Notation R := Rdefinitions.R.

(** ** Connected constraints *)
Section Close.
  Variable A : list var.
  Hypothesis Hid : forall v w, In v A -> In w A -> vid v = vid w -> v = w.
  Lemma ins_in x l v : In x A -> incl l A -> (In v (vs_insert x l) <-> v = x \/ In v l).
  Proof.
    intros Hx Hl. split; [apply vs_insert_in|]. intros H.
    assert (I : In (vid v) (map vid (vs_insert x l))). { apply vs_insert_ids. destruct H as [->|H]; auto. right. now apply in_map. }
    apply in_map_iff in I. destruct I as (w & E & Hw). assert (w = v); [|now subst].
    apply Hid; auto. { apply vs_insert_in in Hw. destruct Hw as [->|Hw]; auto. } { destruct H as [->|H]; auto. }
  Qed.
  Lemma union_in l : forall s, incl s A -> incl l A -> forall v, In v (vs_union s l) <-> In v s \/ In v l.
  Proof.
    induction l as [|x l IH]; intros s Hs Hl v; cbn [vs_union fold_left]; [cbn; tauto|]. fold (vs_union (vs_insert x s) l).
    assert (Hx : In x A) by (apply Hl; left; auto).
    rewrite IH, ins_in; auto. { cbn [In]. intuition. } { intros w Hw. apply ins_in in Hw; auto. destruct Hw as [->|]; auto. } { intros w Hw. apply Hl. right; auto. }
  Qed.
  Lemma union_sorted l : forall s, StronglySorted vlt s -> StronglySorted vlt (vs_union s l).
  Proof. induction l as [|x l IH]; intros s S1; cbn [vs_union fold_left]; auto. apply IH. now apply vs_insert_sorted. Qed.
  Lemma of_in l : incl l A -> forall v, In v (vs_of l) <-> In v l.
  Proof. intros Hl v. change (vs_of l) with (vs_union [] l). rewrite union_in; auto. cbn; tauto. intros w []. Qed.
  Lemma inter_A xs l : incl xs A -> incl l A -> StronglySorted vlt xs -> have_intersection xs (vs_of l) = false -> forall v, In v l -> ~ In v xs.
  Proof.
    intros Hx Hl S1 E v Hv Hw. assert (T : have_intersection xs (vs_of l) = true); [|congruence].
    apply (have_intersection_complete xs (vs_of l) v v); auto. apply vs_of_spec. now apply of_in.
  Qed.

  Lemma xvars_ok l : (forall f, In f l -> incl (fvE f) A) -> forall s, incl s A -> StronglySorted vlt s ->
    incl (fold_left (fun s f => vs_union s (vs_of (fvE f))) l s) A /\ StronglySorted vlt (fold_left (fun s f => vs_union s (vs_of (fvE f))) l s) /\
    forall v, In v (fold_left (fun s f => vs_union s (vs_of (fvE f))) l s) <-> In v s \/ exists f, In f l /\ In v (fvE f).
  Proof.
    induction l as [|f l IH]; intros Hl s Hs S1; cbn [fold_left]. { split; auto. split; auto. intros v. split; auto. intros [H|(f & [] & _)]; auto. }
    assert (Hf : incl (fvE f) A) by (apply Hl; left; auto).
    assert (Ho : incl (vs_of (fvE f)) A). { intros v Hv. apply Hf. apply of_in; auto. }
    assert (U : forall v, In v (vs_union s (vs_of (fvE f))) <-> In v s \/ In v (fvE f)). { intros v. rewrite union_in, of_in; auto. tauto. }
    destruct (IH (fun g Hg => Hl g (or_intror Hg)) (vs_union s (vs_of (fvE f)))) as (I1 & I2 & I3).
    { intros v Hv. apply U in Hv. destruct Hv; auto. } { now apply union_sorted. }
    split; auto. split; auto. intros v. rewrite I3, U. split.
    - intros [[H|H]|(g & H1 & H2)]; auto; right; [exists f|exists g]; cbn; auto.
    - intros [H|(g & [<-|H1] & H2)]; eauto.
  Qed.
  Variable stack : list formula.
  Hypothesis HA : forall f, In f stack -> incl (fvF f) A.
  Lemma pass_ok st : incl st stack -> forall xs cs going xs' cs' going', mn_pass st xs cs going = (xs', cs', going') ->
    incl xs A -> StronglySorted vlt xs ->
    incl xs' A /\ StronglySorted vlt xs' /\ incl xs xs' /\ incl cs cs' /\ (forall f, In f cs' -> In f cs \/ In f st) /\
    ((forall f, In f cs -> incl (fvF f) xs) -> forall f, In f cs' -> incl (fvF f) xs') /\
    (going = true -> going' = true) /\
    (going' = false -> xs' = xs /\ cs' = cs /\ forall f, In f st -> In f cs \/ forall v, In v (fvF f) -> ~ In v xs) /\
    (going' = true -> going = true \/ exists f, In f cs' /\ In f st /\ ~ In f cs).
  Proof.
    induction st as [|f st IH]; intros Hst xs cs going xs' cs' going' E Hx Hs; cbn [mn_pass] in E.
    - injection E as <- <- <-. split; [auto|]. split; [auto|]. split; [apply incl_refl|]. split; [apply incl_refl|]. split; [auto|]. split; [auto|]. split; [auto|].
      split; [intros _; split; [auto|]; split; [auto|intros f []]|auto].
    - assert (Hf : incl (fvF f) A) by (apply HA, Hst; left; auto). assert (Hst' : incl st stack) by (intros g Hg; apply Hst; right; auto).
      assert (Hof : incl (vs_of (fvF f)) A). { intros v Hv. apply Hf. apply of_in; auto. }
      assert (U : forall v, In v (vs_union xs (vs_of (fvF f))) <-> In v xs \/ In v (fvF f)). { intros v. rewrite union_in, of_in; auto. tauto. }
      destruct (negb (fmem f cs) && have_intersection xs (vs_of (fvF f)))%bool eqn:C.
      + destruct (IH Hst' _ _ _ _ _ _ E) as (A1 & A2 & A3 & A4 & A5 & A6 & A7 & A8 & A9).
        { intros v Hv. apply U in Hv. destruct Hv; auto. } { now apply union_sorted. }
        split; auto. split; auto. split. { intros v Hv. apply A3, U; auto. } split. { intros g Hg. apply A4, in_app_iff; auto. }
        split. { intros g Hg. apply A5 in Hg. rewrite in_app_iff in Hg. cbn [In] in *. intuition. }
        split. { intros Hc. apply A6. intros g Hg v Hv. apply U. apply in_app_iff in Hg. destruct Hg as [Hg|[<-|[]]]; [left; now apply (Hc g)|auto]. }
        split; [auto|]. split. { intros ->. specialize (A7 eq_refl). discriminate. }
        intros _. right. exists f. split; [apply A4, in_app_iff; right; left; auto|]. split; [left; auto|]. apply andb_true_iff in C. destruct C as [C _]. apply negb_true_iff in C.
        intros X. apply fmem_In in X. congruence.
      + destruct (IH Hst' _ _ _ _ _ _ E Hx Hs) as (A1 & A2 & A3 & A4 & A5 & A6 & A7 & A8 & A9).
        split; auto. split; auto. split; auto. split; auto. split. { intros g Hg. apply A5 in Hg. cbn; tauto. } split; auto. split; auto. split.
        * intros Eg. destruct (A8 Eg) as (-> & -> & H). split; auto. split; auto. intros g [<-|Hg]; auto.
          apply andb_false_iff in C. destruct C as [C|C]; [left; apply negb_false_iff, fmem_In in C; auto|right; now apply inter_A].
        * intros Eg. destruct (A9 Eg) as [X|(g & X1 & X2 & X3)]; auto. right. exists g. cbn; auto.
  Qed.
  Lemma close_ok k : forall xs cs xs' cs' t, mn_close k stack xs cs = (Val (xs', cs'), t) -> incl xs A -> StronglySorted vlt xs ->
    (forall f, In f cs -> incl (fvF f) xs) -> incl cs stack ->
    t = [] /\ incl xs' A /\ StronglySorted vlt xs' /\ incl xs xs' /\ incl cs' stack /\ (forall f, In f cs' -> incl (fvF f) xs') /\
    forall f, In f stack -> In f cs' \/ forall v, In v (fvF f) -> ~ In v xs'.
  Proof.
    induction k as [|k IH]; intros xs cs xs' cs' t E Hx Hs Hc Hcs; cbn [mn_close] in E; [discriminate|].
    destruct (mn_pass stack xs cs false) as [[xs1 cs1] going] eqn:P. apply pass_ok in P; auto using incl_refl.
    destruct P as (A1 & A2 & A3 & A4 & A5 & A6 & A7 & A8 & A9). destruct going.
    - apply IH in E; auto. { destruct E as (B1 & B2 & B3 & B4 & B5). split; auto. split; auto. split; auto. split; auto. intros v Hv; auto. } { intros f Hf. apply A5 in Hf. destruct Hf; auto. }
    - apply ret_val in E. destruct E as [E ->]. injection E as <- <-. destruct (A8 eq_refl) as (-> & -> & H). repeat (split; [solve [auto]|]). auto.
  Qed.
  (** The fuel suffices: every round but the last adds a constraint. *)
  Lemma pass_nodup st : forall xs cs going xs' cs' going', NoDup cs -> mn_pass st xs cs going = (xs', cs', going') -> NoDup cs'.
  Proof.
    induction st as [|f st IH]; intros xs cs going xs' cs' going' N E; cbn [mn_pass] in E; [injection E as _ <- _; auto|].
    destruct (negb (fmem f cs) && have_intersection xs (vs_of (fvF f)))%bool eqn:C; [|eauto].
    apply (IH _ _ _ _ _ _) in E; auto. apply andb_true_iff in C. destruct C as [C _]. apply negb_true_iff in C.
    apply (Permutation_NoDup (Permutation_cons_append cs f)). constructor; auto. intros X. apply fmem_In in X. congruence.
  Qed.
  Lemma close_enough k : forall xs cs, incl xs A -> StronglySorted vlt xs -> NoDup cs -> incl cs stack -> (length stack < k + length cs)%nat ->
    exists q, mn_close k stack xs cs = (Val q, []).
  Proof.
    induction k as [|k IH]; intros xs cs Hx Hs N Hc L.
    - pose proof (NoDup_incl_length N Hc). lia.
    - cbn [mn_close]. destruct (mn_pass stack xs cs false) as [[xs1 cs1] going] eqn:P. pose proof (pass_nodup _ _ _ _ _ _ _ N P) as N1.
      apply pass_ok in P; auto using incl_refl. destruct P as (A1 & A2 & A3 & A4 & A5 & A6 & A7 & A8 & A9). destruct going; [|eexists; reflexivity].
      apply IH; auto. { intros f Hf. apply A5 in Hf. destruct Hf; auto. }
      destruct (A9 eq_refl) as [X|(f & X1 & X2 & X3)]; [discriminate|].
      assert (length (f :: cs) <= length cs1)%nat; [|cbn [length] in *; lia].
      apply NoDup_incl_length; [constructor; auto|]. intros g [<-|Hg]; auto.
  Qed.
End Close.
Lemma search_ends stack fs A : (forall v w, In v A -> In w A -> vid v = vid w -> v = w) -> (forall f, In f stack -> incl (fvF f) A) -> (forall f, In f fs -> incl (fvE f) A) ->
  exists q, mn_close (S (length stack)) stack (mn_xvars fs) [] = (Val q, []).
Proof.
  intros Hid HA Hf. destruct (xvars_ok A Hid fs Hf [] (fun v H => match H with end) (SSorted_nil _)) as (X1 & X2 & _).
  apply (close_enough A Hid stack HA); auto; [constructor|intros f []|cbn; lia].
Qed.

(** ** The encoding *)
Section Enc.
  Variables (uf : nat -> list R -> R) (rc : dbl -> dbl -> R) (fpow : dbl -> dbl -> dbl) (n : nat).
  Notation M := (std uf rc).
  Notation ev := (evalE M).
  Notation hd := (holds M).
  Notation df := (defE M stdD).
  Notation dF := (defF M stdD).
  Notation ok := (Forall (exact M)).
  Local Open Scope R_scope.

  Definition some (phi : list formula) (rho : env) : Prop := exists g, In g phi /\ hd g rho.
  Lemma some_insert g phi rho : some (finsert g phi) rho <-> hd g rho \/ some phi rho.
  Proof.
    unfold some. split.
    - intros (h & H1 & H2). apply finsert_In in H1. destruct H1 as [->|H1]; eauto.
    - intros [H|(h & H1 & H2)]; [exists g|exists h]; (split; [apply finsert_In; auto|auto]).
  Qed.
  Definition within (i : ival) (x : R) : Prop := (is_finite (ilb i) = true -> B2R (ilb i) <= x) /\ (is_finite (iub i) = true -> x <= B2R (iub i)).
  Definition pairs (xs : list var) (i : nat) : list (var * nat) := combine xs (seq i (length xs)).
  Definition subst_of (xs : list var) (i : nat) : list (var * expr) := map (fun p => (fst p, EVar (mn_y (fst p) (snd p)))) (pairs xs i).

  Lemma vars_ok b xs : forall i phi sub phi' t, mn_vars fpow n b xs i phi = (Val (sub, phi'), t) -> ok t ->
    sub = subst_of xs i /\ (forall x, In x xs -> vty x <> BOOLEAN) /\
    forall rho, some phi' rho <-> some phi rho \/ exists x j, In (x, j) (pairs xs i) /\ ~ within (b_getv b x) (rho (mn_y x j)).
  Proof.
    induction xs as [|x xs IH]; intros i phi sub phi' t E Ht; cbn [mn_vars] in E.
    - apply ret_val in E. destruct E as [E ->]. injection E as -> ->. split; [reflexivity|]. split; [intros x []|]. intros rho. split; auto. intros [H|(x & j & [] & _)]; auto.
    - destruct (vtype_eqb (vty x) BOOLEAN) eqn:Ty; [discriminate|].
      apply bind_val in E. destruct E as (p1 & t1 & t2 & E1 & E & ->). apply bind_val in E. destruct E as (p2 & t3 & t4 & E2 & E & ->). apply bind_val in E. destruct E as ([s p3] & t5 & t6 & E3 & E & ->).
      apply ret_val in E. destruct E as [E ->]. cbn [fst snd] in E. injection E as -> ->. rewrite app_nil_r in Ht. apply Forall_app in Ht. destruct Ht as [O1 Ht]. apply Forall_app in Ht. destruct Ht as [O2 O3].
      destruct (IH _ _ _ _ _ E3 O3) as (-> & Nb & Sm). split; [reflexivity|]. split. { intros w [<-|Hw]; auto. intros X. rewrite X in Ty. discriminate. }
      assert (S1 : forall rho, some p1 rho <-> some phi rho \/ (is_finite (ilb (b_getv b x)) = true /\ ~ B2R (ilb (b_getv b x)) <= rho (mn_y x i))).
      { intros rho. destruct (is_finite (ilb (b_getv b x))) eqn:Fl.
        - apply bind_val in E1. destruct E1 as (g & u1 & u2 & E4 & E5 & ->). apply ret_val in E5. destruct E5 as [-> ->]. rewrite app_nil_r in O1.
          destruct (mk_relm_ev uf rc fpow n RLeq _ _ rho g u1 E4 O1 I I) as [D1 V1]. rewrite some_insert, mk_not_holds, V1, mk_const_ev. cbn [relR evalE]. tauto.
        - apply ret_val in E1. destruct E1 as [-> ->]. split; auto. intros [H|[H _]]; auto; discriminate. }
      assert (S2 : forall rho, some p2 rho <-> some p1 rho \/ (is_finite (iub (b_getv b x)) = true /\ ~ rho (mn_y x i) <= B2R (iub (b_getv b x)))).
      { intros rho. destruct (is_finite (iub (b_getv b x))) eqn:Fl.
        - apply bind_val in E2. destruct E2 as (g & u1 & u2 & E4 & E5 & ->). apply ret_val in E5. destruct E5 as [-> ->]. rewrite app_nil_r in O2.
          destruct (mk_relm_ev uf rc fpow n RLeq _ _ rho g u1 E4 O2 I I) as [D1 V1]. rewrite some_insert, mk_not_holds, V1, mk_const_ev. cbn [relR evalE]. tauto.
        - apply ret_val in E2. destruct E2 as [-> ->]. split; auto. intros [H|[H _]]; auto; discriminate. }
      intros rho. rewrite Sm, S2, S1. unfold pairs. cbn [length seq combine]. fold (pairs xs (S i)). split.
      + intros [[[H|[H1 H2]]|[H1 H2]]|(w & j & H1 & H2)]; auto; right.
        * exists x, i. split; [left; auto|]. intros [W1 _]. auto.
        * exists x, i. split; [left; auto|]. intros [_ W1]. auto.
        * exists w, j. split; [right; auto|auto].
      + intros [H|(w & j & [X|H1] & H2)]; auto; [|right; eauto]. injection X as <- <-. left. unfold within in H2.
        destruct (is_finite (ilb (b_getv b x))) eqn:F1, (is_finite (iub (b_getv b x))) eqn:F2;
          destruct (Rle_dec (B2R (ilb (b_getv b x))) (rho (mn_y x i))); destruct (Rle_dec (rho (mn_y x i)) (B2R (iub (b_getv b x)))); try tauto; exfalso; apply H2; split; intros; auto; discriminate.
  Qed.

  Lemma cons_ok sub cs : forall phi phi' t, mn_cons fpow n sub cs phi = (Val phi', t) -> ok t -> forall rho,
    (some phi rho -> some phi' rho) /\
    ((forall f, In f cs -> sokF sub [] [] f /\ (forall v, In v (fvF f) -> idef M stdD sub [] rho v) /\ dF f (updated M sub [] rho)) ->
     (some phi' rho <-> some phi rho \/ exists f, In f cs /\ ~ hd f (updated M sub [] rho))).
  Proof.
    induction cs as [|f cs IH]; intros phi phi' t E Ht rho; cbn [mn_cons] in E.
    - apply ret_val in E. destruct E as [-> ->]. split; auto. intros _. split; auto. intros [H|(f & [] & _)]; auto.
    - apply bind_val in E. destruct E as (g & t1 & t2 & E1 & E2 & ->). apply Forall_app in Ht. destruct Ht as [O1 O2].
      destruct (IH _ _ _ E2 O2 rho) as [I1 I2]. split. { intros H. apply I1, some_insert; auto. }
      intros Hf. destruct (Hf f (or_introl eq_refl)) as (F1 & F2 & F3). destruct (subst_top_F uf rc fpow n sub [] f rho g t1 F1 F2 F3 E1 O1) as [_ V].
      rewrite I2 by (intros h Hh; apply Hf; right; auto). rewrite some_insert, mk_not_holds, V. split.
      + intros [[H|H]|(h & H1 & H2)]; auto; right; [exists f|exists h]; cbn; auto.
      + intros [H|(h & [<-|H1] & H2)]; eauto.
  Qed.

  Lemma objs_ok sub fs : forall i zb q zb' q' zs t, mn_objs fpow n sub fs i zb q = (Val (zb', q', zs), t) -> ok t ->
    zs = map (fun j => mkVar j CONTINUOUS) (seq i (length fs)) /\ forall rho,
    (hd q rho -> hd q' rho) /\
    ((forall f, In f fs -> df f rho) -> (hd zb' rho <-> hd zb rho /\ forall f z, In (f, z) (combine fs zs) -> rho z = ev f rho)) /\
    ((forall f, In f fs -> sokE sub [] [] f /\ (forall v, In v (fvE f) -> idef M stdD sub [] rho v) /\ df f (updated M sub [] rho)) ->
     (hd q' rho <-> hd q rho \/ exists f z, In (f, z) (combine fs zs) /\ rho z <= ev f (updated M sub [] rho))).
  Proof.
    induction fs as [|f fs IH]; intros i zb q zb' q' zs t E Ht; cbn [mn_objs] in E.
    - apply ret_val in E. destruct E as [E ->]. injection E as -> -> ->. split; [reflexivity|]. intros rho. split; auto. split; intros _.
      + split; [intros H; split; auto; intros f z []|tauto].
      + split; auto. intros [H|(f & z & [] & _)]; auto.
    - apply bind_val in E. destruct E as (e & t1 & t2 & E1 & E & ->). apply bind_val in E. destruct E as (f' & t3 & t4 & E2 & E & ->).
      apply bind_val in E. destruct E as (l & t5 & t6 & E3 & E & ->). apply bind_val in E. destruct E as ([[zb1 q1] zs1] & t7 & t8 & E4 & E & ->).
      apply ret_val in E. destruct E as [E ->]. cbn [fst snd] in E. injection E as -> -> ->. rewrite app_nil_r in Ht.
      apply Forall_app in Ht. destruct Ht as [O1 Ht]. apply Forall_app in Ht. destruct Ht as [O2 Ht]. apply Forall_app in Ht. destruct Ht as [O3 O4].
      destruct (IH _ _ _ _ _ _ _ E4 O4) as [Ez IHr]. split; [cbn [length seq map]; congruence|]. intros rho. destruct (IHr rho) as (I1 & I2 & I3). split; [|split].
      + intros H. apply I1, mk_or_holds; auto.
      + intros Hd. rewrite I2 by (intros h Hh; apply Hd; right; auto). rewrite mk_and_holds.
        destruct (mk_relm_ev uf rc fpow n REq _ _ rho e t1 E1 O1 I (Hd f (or_introl eq_refl))) as [_ V]. rewrite V. cbn [relR evalE combine In]. split.
        * intros [[H1 H2] H3]. split; auto. intros g z [X|X]; auto. injection X as <- <-. exact H2.
        * intros [H1 H2]. split; [split; auto|]. intros g z X. apply H2; auto.
      + intros Hs. rewrite I3 by (intros h Hh; apply Hs; right; auto). rewrite mk_or_holds.
        destruct (Hs f (or_introl eq_refl)) as (F1 & F2 & F3). destruct (subst_top_E uf rc fpow n sub [] f rho f' t3 F1 F2 F3 E2 O2) as [D2 V2].
        destruct (mk_relm_ev uf rc fpow n RLeq _ _ rho l t5 E3 O3 I D2) as [_ V]. rewrite V, V2. cbn [relR evalE combine In]. split.
        * intros [[H|H]|(g & z & H1 & H2)]; auto; right; [exists f; eexists; split; [left; reflexivity|auto]|exists g, z; auto].
        * intros [H|(g & z & [X|H1] & H2)]; auto; [injection X as <- <-; auto|right; eauto].
  Qed.

  (** The substitution *)
  Lemma pairs_in xs i x j : In (x, j) (pairs xs i) -> In x xs /\ (i <= j < i + length xs)%nat.
  Proof. unfold pairs. intros H. split; [eapply in_combine_l; eauto|]. apply in_combine_r in H. apply in_seq in H. lia. Qed.
  Lemma pairs_ex xs : forall i x, In x xs -> exists j, In (x, j) (pairs xs i).
  Proof.
    unfold pairs. induction xs as [|w xs IH]; intros i x H; [destruct H|]. cbn [length seq combine]. destruct H as [<-|H]; [exists i; left; auto|].
    destruct (IH (S i) x H) as [j Hj]. exists j. right; auto.
  Qed.
  Lemma pairs_fun xs : NoDup xs -> forall i x j j', In (x, j) (pairs xs i) -> In (x, j') (pairs xs i) -> j = j'.
  Proof.
    induction 1 as [|w xs Hw N IH]; intros i x j j' H1 H2; [destruct H1|]. unfold pairs in *. cbn [length seq combine] in *. fold (pairs xs (S i)) in *.
    destruct H1 as [X|H1], H2 as [Y|H2].
    - congruence.
    - injection X as <- <-. apply in_combine_l in H2. tauto.
    - injection Y as <- <-. apply in_combine_l in H1. tauto.
    - eapply IH; eauto.
  Qed.
  Lemma pairs_inj xs : forall i x x' j, In (x, j) (pairs xs i) -> In (x', j) (pairs xs i) -> x = x'.
  Proof.
    induction xs as [|w xs IH]; intros i x x' j H1 H2; [destruct H1|]. unfold pairs in *. cbn [length seq combine] in *. fold (pairs xs (S i)) in *.
    destruct H1 as [X|H1], H2 as [Y|H2].
    - congruence.
    - injection X as <- <-. apply in_combine_r, in_seq in H2. lia.
    - injection Y as <- <-. apply in_combine_r, in_seq in H1. lia.
    - eapply IH; eauto.
  Qed.
  Lemma image_in xs i x j : NoDup xs -> In (x, j) (pairs xs i) -> image x (subst_of xs i) = Some (EVar (mn_y x j)).
  Proof.
    intros N H. unfold image, subst_of. destruct (find _ _) as [p|] eqn:E.
    - apply find_some in E. destruct E as [E1 E2]. apply var_eqb_eq in E2. apply in_map_iff in E1. destruct E1 as ([x' j'] & <- & E3). cbn [fst snd] in *. subst x'.
      now rewrite (pairs_fun xs N i x j j').
    - exfalso. assert (X : In (x, EVar (mn_y x j)) (map (fun p => (fst p, EVar (mn_y (fst p) (snd p)))) (pairs xs i))).
      { apply in_map_iff. exists (x, j). auto. }
      pose proof (find_none _ _ E _ X) as F. cbn [fst] in F. rewrite (proj2 (var_eqb_eq x x) eq_refl) in F. discriminate.
  Qed.
  Lemma image_out xs i v : ~ In v xs -> image v (subst_of xs i) = None.
  Proof.
    intros H. unfold image, subst_of. destruct (find _ _) as [p|] eqn:E; auto. exfalso. apply find_some in E. destruct E as [E1 E2].
    apply var_eqb_eq in E2. apply in_map_iff in E1. destruct E1 as ([x' j'] & <- & E3). cbn [fst snd] in *. subst x'. apply pairs_in in E3. tauto.
  Qed.
  Lemma image_any xs i v e : image v (subst_of xs i) = Some e -> exists j, (i <= j)%nat /\ e = EVar (mn_y v j).
  Proof.
    unfold image, subst_of. destruct (find _ _) as [p|] eqn:E; [|discriminate]. intros X. injection X as <-. apply find_some in E. destruct E as [E1 E2].
    apply var_eqb_eq in E2. apply in_map_iff in E1. destruct E1 as ([x' j'] & <- & E3). cbn [fst snd] in *. subst x'. exists j'. apply pairs_in in E3. split; [lia|auto].
  Qed.
  Lemma upd_in xs i x j rho : NoDup xs -> In (x, j) (pairs xs i) -> vty x <> BOOLEAN -> updated M (subst_of xs i) [] rho x = rho (mn_y x j).
  Proof. intros N H Ty. unfold updated, imgE. rewrite (image_in xs i x j N H). destruct (vty x); [reflexivity|reflexivity|reflexivity|tauto]. Qed.
  Lemma upd_out xs i v rho : ~ In v xs -> updated M (subst_of xs i) [] rho v = rho v.
  Proof. intros N. unfold updated, imgE, imgF. rewrite (image_out xs i v N). cbn [image find]. destruct (vty v); reflexivity. Qed.
  Lemma idef_all xs i rho v : idef M stdD (subst_of xs i) [] rho v.
  Proof.
    unfold idef, imgE, imgF. destruct (image v (subst_of xs i)) as [e|] eqn:E; [|destruct (vty v); exact I].
    apply image_any in E. destruct E as (j & _ & ->). destruct (vty v); exact I.
  Qed.
  Lemma iv_fresh xs i nx v w : (nx <= i)%nat -> (vid w < nx)%nat -> ~ In w (ivars (subst_of xs i) [] v).
  Proof.
    intros Hi Hw X. unfold ivars, imgE, imgF in X. destruct (image v (subst_of xs i)) as [e|] eqn:E.
    - apply image_any in E. destruct E as (j & Hj & ->). destruct (vty v); cbn in X; try tauto; destruct X as [<-|[]]; cbn [mn_y vid] in Hw; lia.
    - destruct (vty v); exact X.
  Qed.
End Enc.

Lemma within_mem i x : i_ok i -> i <> IEmpty -> (within i x <-> imem x i).
Proof.
  intros Hi Ne. destruct i as [|l u]; [congruence|]. destruct Hi as (L & L1 & U1). unfold within, imem, ilb, iub.
  destruct l as [sl|[]| |sl ml el Hl], u as [su|[]| |su mu eu Hu]; cbn in L, L1, U1; try discriminate; cbn [is_finite d2e ext_le B2R];
    (split; [intros [H1 H2]; split; auto; (now apply H1) || (now apply H2)|intros [H1 H2]; split; auto; discriminate]).
Qed.

Section Main.
  Variables (uf : nat -> list R -> R) (rc : dbl -> dbl -> R) (fpow : dbl -> dbl -> dbl) (n : nat).
  Notation M := (std uf rc).
  Notation ev := (evalE M).
  Notation hd := (holds M).
  Local Open Scope R_scope.
  Variables (b : box) (stack : list formula) (fs : list expr) (nx : nat).
  Hypothesis W : posed M stdD b stack fs nx.
  Let A := bvars b.
  Let Bok : box_ok b. Proof. exact (proj1 W). Qed.
  Let Bnx : bnd nx A. Proof. exact (proj1 (proj2 W)). Qed.
  Let Hid : forall v w, In v A -> In w A -> vid v = vid w -> v = w. Proof. exact (proj1 (proj2 (proj2 W))). Qed.
  Let Hst : forall f, In f stack -> occF (fun v => (vid v < nx)%nat) (fun v => In v A) f. Proof. exact (proj1 (proj2 (proj2 (proj2 W)))). Qed.
  Let Hfs : forall f, In f fs -> occE (fun v => (vid v < nx)%nat) (fun v => In v A) f. Proof. exact (proj1 (proj2 (proj2 (proj2 (proj2 W))))). Qed.
  Let Hdf : forall rho, well_typed rho -> in_box rho b -> (forall f, In f stack -> defF M stdD f rho) /\ forall f, In f fs -> defE M stdD f rho.
  Proof. exact (proj2 (proj2 (proj2 (proj2 (proj2 W))))). Qed.

  Lemma sorted_nodup xs : StronglySorted vlt xs -> NoDup xs.
  Proof.
    induction 1 as [|x xs S1 IH F]; constructor; auto. intros H. rewrite Forall_forall in F. specialize (F x H). unfold vlt in F. lia.
  Qed.
  Lemma box_of rho : (forall v, In v A -> imem (rho v) (b_getv b v)) -> b_empty b = false -> in_box rho b.
  Proof.
    intros H E. split; auto. intros i v Hi. pose proof (H v (nth_error_In _ _ Hi)) as X. unfold b_getv, b_idx0, b_index in X.
    destruct (index_of_In v (bvars b) (nth_error_In _ _ Hi)) as [j J]. rewrite J in X. apply index_of_nth in J.
    destruct Bok as [N _]. assert (i = j) by (apply (proj1 (NoDup_nth_error _) N i j); [apply nth_error_Some; congruence|congruence]). now subst.
  Qed.

  Theorem minimize_ok ys zs psi t : mn_plan fpow n fs stack b nx = (Val (ys, zs, psi), t) -> Forall (exact M) t ->
    forall rho, feasible M b stack rho ->
    ((exists rho1, agree_off zs rho rho1 /\ hd psi rho1) <-> undominated M b stack fs rho).
  Proof.
    intros E Ht rho (Wt & Ib & Hs). unfold mn_plan in E.
    apply bind_val in E. destruct E as ([xs cs] & t1 & t2 & E1 & E & ->). apply bind_val in E. destruct E as ([sub phi] & t3 & t4 & E2 & E & ->).
    apply bind_val in E. destruct E as (phi' & t5 & t6 & E3 & E & ->). apply bind_val in E. destruct E as ([[zb q] zs1] & t7 & t8 & E4 & E & ->).
    apply ret_val in E. destruct E as [E ->]. injection E as -> -> ->. rename zs1 into zs. rewrite app_nil_r in Ht.
    apply Forall_app in Ht. destruct Ht as [_ Ht]. apply Forall_app in Ht. destruct Ht as [O2 Ht]. apply Forall_app in Ht. destruct Ht as [O3 O4].
    destruct (xvars_ok A Hid fs (fun f Hf => proj1 (occ_fv _) f _ (Hfs f Hf)) [] (fun v H => match H with end) (SSorted_nil _)) as (X1 & X2 & X3). fold (mn_xvars fs) in X1, X2, X3.
    destruct (close_ok A Hid stack (fun f Hf => proj2 (occ_fv _) f _ (Hst f Hf)) _ _ _ _ _ _ E1 X1 X2) as (-> & C1 & C2 & C3 & C4 & C5 & C6); [intros f []|intros f []|].
    pose proof (sorted_nodup xs C2) as N.
    destruct (vars_ok uf rc fpow n b xs nx [] sub phi t3 E2 O2) as (-> & Nb & V1).
    set (sub := subst_of xs nx) in *. set (ys := map (fun p => mn_y (fst p) (snd p)) (combine xs (seq nx (length xs)))) in *.
    pose proof (fun r => cons_ok uf rc fpow n sub cs phi phi' t5 E3 O3 r) as V2.
    destruct (objs_ok uf rc fpow n sub fs (nx + length xs) FTrue (mk_disj phi') zb q zs t7 E4 O4) as [Ez V3].
    assert (Iny : forall v, In v ys <-> exists x j, In (x, j) (pairs xs nx) /\ v = mn_y x j).
    { intros v. unfold ys. rewrite in_map_iff. split; [intros ([x j] & <- & H); exists x, j; auto|intros (x & j & H & ->); exists (x, j); auto]. }
    assert (Idy : forall v, In v ys -> (nx <= vid v < nx + length xs)%nat). { intros v Hv. apply Iny in Hv. destruct Hv as (x & j & H & ->). apply pairs_in in H. cbn [mn_y vid]. lia. }
    assert (Idz : forall v, In v zs -> (nx + length xs <= vid v)%nat). { intros v Hv. rewrite Ez in Hv. apply in_map_iff in Hv. destruct Hv as (j & <- & H). apply in_seq in H. cbn [vid]. lia. }
    assert (Ay : forall v, In v A -> ~ In v ys). { intros v H1 H2. apply Bnx in H1. apply Idy in H2. lia. }
    assert (Az : forall v, In v A -> ~ In v zs). { intros v H1 H2. apply Bnx in H1. apply Idz in H2. lia. }
    assert (Ofy : forall v, In v (vs_of ys) <-> In v ys).
    { apply (of_in ys); [|apply incl_refl]. intros v w Hv Hw Ev. apply Iny in Hv, Hw. destruct Hv as (x & j & H1 & ->), Hw as (x' & j' & H2 & ->). cbn [mn_y vid] in Ev. subst j'.
      now rewrite (pairs_inj xs nx x x' j H1 H2). }
    assert (Sok : (forall f, In f stack -> sokF sub [] [] f) /\ forall f, In f fs -> sokE sub [] [] f).
    { destruct (occ_sok (fun v => (vid v < nx)%nat) sub []) as [S1 S2]; [intros v w Hw; apply (iv_fresh uf n xs nx nx v w (Nat.le_refl _) Hw)|].
      split; intros f Hf; [apply (S2 f (fun v => In v A) []); [intros w []|auto]|apply (S1 f (fun v => In v A) []); [intros w []|auto]]. }
    assert (Ne : forall v, In v A -> b_getv b v <> IEmpty). { intros v Hv X. pose proof (b_getv_mem rho b v Bok Ib Hv) as Y. rewrite X in Y. exact Y. }
    assert (Wi : forall v x, In v A -> (within (b_getv b v) x <-> imem x (b_getv b v))). { intros v x Hv. apply within_mem; auto. apply b_getv_ok; auto. }
    assert (Xfs : forall f v, In f fs -> In v (fvE f) -> In v xs). { intros f v Hf Hv. apply C3, X3. eauto. }
    assert (Fz : forall f, In f fs -> exists z, In (f, z) (combine fs zs)).
    { intros f Hf. rewrite Ez. clear - Hf. generalize (nx + length xs)%nat. induction fs as [|g l IH]; intros i; [destruct Hf|]. cbn [length seq map combine].
      destruct Hf as [<-|Hf]; [eexists; left; reflexivity|]. destruct (IH Hf (S i)) as [z Hz]. exists z. right; auto. }
    (* what the disjunction says at a point whose image lies in the domain *)
    assert (Q : forall r, well_typed (updated M sub [] r) -> in_box (updated M sub [] r) b ->
      (hd q r <-> (exists x j, In (x, j) (pairs xs nx) /\ ~ within (b_getv b x) (r (mn_y x j))) \/ (exists f, In f cs /\ ~ hd f (updated M sub [] r)) \/
                  exists f z, In (f, z) (combine fs zs) /\ r z <= ev f (updated M sub [] r))).
    { intros r Wr Ir. destruct (Hdf _ Wr Ir) as [D1 D2]. destruct (V3 r) as (_ & _ & V3'). rewrite V3'.
      - rewrite mk_disj_holds. fold (some uf rc phi' r). destruct (V2 r) as [_ V2']. rewrite V2', V1.
        + unfold some at 1. split; [intros [[[(g & [] & _)|H]|H]|H]; auto|intros [H|[H|H]]; auto].
        + intros f Hf. specialize (C4 f Hf). split; [apply Sok; auto|]. split; [intros v _; apply idef_all|auto].
      - intros f Hf. split; [apply Sok; auto|]. split; [intros v _; apply idef_all|auto]. }
    split.
    - intros (r1 & Ao & H) (r' & (Wt' & Ib' & Hs') & Lt). apply mk_and_holds in H. destruct H as [Hz Hq]. apply (proj1 (mk_forall_holds M (vs_of ys) q r1)) in Hq.
      set (inv := fun v => find (fun p => var_eqb (mn_y (fst p) (snd p)) v) (pairs xs nx)).
      set (r2 := fun v => match inv v with Some p => r' (fst p) | None => r1 v end).
      assert (R2y : forall x j, In (x, j) (pairs xs nx) -> r2 (mn_y x j) = r' x).
      { intros x j H. unfold r2, inv. destruct (find _ _) as [[x' j']|] eqn:F.
        - apply find_some in F. destruct F as [F1 F2]. apply var_eqb_eq in F2. unfold mn_y in F2. cbn [fst snd] in *. injection F2 as F2 _. subst j'. now rewrite (pairs_inj xs nx x x' j H F1).
        - exfalso. pose proof (find_none _ _ F _ H) as X. cbn [fst snd] in X. rewrite (proj2 (var_eqb_eq _ _) eq_refl) in X. discriminate. }
      assert (R2n : forall v, ~ In v ys -> r2 v = r1 v).
      { intros v Hv. unfold r2, inv. destruct (find _ _) as [[x' j']|] eqn:F; auto. exfalso. apply Hv. apply find_some in F. destruct F as [F1 F2]. apply var_eqb_eq in F2. apply Iny. exists x', j'. split; auto. }
      assert (Hq2 : hd q r2).
      { cbn [holds] in Hq. apply Hq. { intros v Hv. apply R2n. intros X. apply Hv, Ofy; auto. }
        intros v Hv. apply Ofy, Iny in Hv. destruct Hv as (x & j & H & ->). rewrite R2y; auto. cbn [mn_y vty]. apply Wt'. }
      assert (Ux : forall x, In x xs -> updated M sub [] r2 x = r' x).
      { intros x Hx. destruct (pairs_ex xs nx x Hx) as [j Hj]. unfold sub. rewrite (upd_in uf rc n xs nx x j r2 N Hj); auto. }
      assert (Uo : forall v, In v A -> ~ In v xs -> updated M sub [] r2 v = rho v).
      { intros v Hv Hx. unfold sub. rewrite upd_out; auto. rewrite R2n by auto. apply Ao. auto. }
      assert (IU : in_box (updated M sub [] r2) b).
      { apply box_of; [|apply Ib]. intros v Hv. destruct (in_dec var_eq_dec v xs) as [Hx|Hx]; [rewrite Ux|rewrite Uo]; auto; apply b_getv_mem; auto. }
      assert (W1 : well_typed r1).
      { intros v. destruct (in_dec var_eq_dec v zs) as [Hv|Hv]; [|rewrite (Ao v Hv); apply Wt]. rewrite Ez in Hv. apply in_map_iff in Hv. destruct Hv as (j & <- & _). exact I. }
      assert (W2 : well_typed r2).
      { intros v. destruct (in_dec var_eq_dec v ys) as [Hv|Hv]; [|rewrite (R2n v Hv); apply W1]. apply Iny in Hv. destruct Hv as (x & j & H & ->). rewrite R2y; auto. cbn [mn_y vty]. apply Wt'. }
      assert (WU : well_typed (updated M sub [] r2)).
      { intros v. destruct (in_dec var_eq_dec v xs) as [Hx|Hx]; [rewrite Ux; auto|unfold sub; rewrite upd_out; auto]. }
      assert (I1 : in_box r1 b). { apply box_of; [|apply Ib]. intros v Hv. rewrite (Ao v (Az v Hv)). apply b_getv_mem; auto. }
      apply (Q r2 WU IU) in Hq2. destruct Hq2 as [(x & j & H1 & H2)|[(f & H1 & H2)|(f & z & H1 & H2)]].
      + apply H2. rewrite R2y by auto. apply pairs_in in H1. destruct H1 as [H1 _]. apply Wi; auto. apply b_getv_mem; auto.
      + apply H2. apply (holds_agree M f r'); [|apply Hs', C4; auto]. intros v Hv. symmetry. apply Ux, (C5 f); auto.
      + assert (Hf : In f fs) by (eapply in_combine_l; eauto). assert (Hzz : In z zs) by (eapply in_combine_r; eauto).
        specialize (Lt f Hf). rewrite R2n in H2 by (intros X; apply Idy in X; apply Idz in Hzz; lia).
        destruct (V3 r1) as (_ & V3' & _). apply V3' in Hz; [|apply Hdf; auto]. destruct Hz as [_ Hz]. rewrite (Hz f z H1) in H2.
        assert (E5 : ev f r1 = ev f rho). { apply evalE_agree. intros v Hv. apply Ao, Az. apply (proj1 (occ_fv _) f _ (Hfs f Hf)). auto. }
        assert (E6 : ev f (updated M sub [] r2) = ev f r'). { apply evalE_agree. intros v Hv. apply Ux. eauto. }
        lra.
    - intros Und.
      set (zinv := fun v => find (fun p => var_eqb (snd p) v) (combine fs zs)).
      set (r1 := fun v => match zinv v with Some p => ev (fst p) rho | None => rho v end).
      assert (R1z : forall f z, In (f, z) (combine fs zs) -> r1 z = ev f rho).
      { intros f z H. unfold r1, zinv. destruct (find _ _) as [[f' z']|] eqn:F.
        - apply find_some in F. destruct F as [F1 F2]. apply var_eqb_eq in F2. cbn [fst snd] in *. subst z'. f_equal. rewrite Ez in H, F1. clear - H F1. revert H F1.
          generalize (nx + length xs)%nat. induction fs as [|g l IH]; intros i H F; [destruct H|]. cbn [length seq map combine] in H, F. destruct H as [X|H], F as [Y|F].
          + congruence.
          + injection X as <- <-. apply in_combine_r, in_map_iff in F. destruct F as (j & F1 & F2). apply in_seq in F2. injection F1 as F1. lia.
          + injection Y as <- <-. apply in_combine_r, in_map_iff in H. destruct H as (j & F1 & F2). apply in_seq in F2. injection F1 as F1. lia.
          + eapply IH; eauto.
        - exfalso. pose proof (find_none _ _ F _ H) as X. cbn [snd] in X. rewrite (proj2 (var_eqb_eq _ _) eq_refl) in X. discriminate. }
      assert (R1n : forall v, ~ In v zs -> r1 v = rho v).
      { intros v Hv. unfold r1, zinv. destruct (find _ _) as [[f' z']|] eqn:F; auto. exfalso. apply Hv. apply find_some in F. destruct F as [F1 F2]. apply var_eqb_eq in F2. cbn [snd] in F2. subst. eapply in_combine_r; eauto. }
      assert (W1 : well_typed r1).
      { intros v. destruct (in_dec var_eq_dec v zs) as [Hv|Hv]; [|rewrite (R1n v Hv); apply Wt]. rewrite Ez in Hv. apply in_map_iff in Hv. destruct Hv as (j & <- & _). exact I. }
      assert (I1 : in_box r1 b). { apply box_of; [|apply Ib]. intros v Hv. rewrite (R1n v (Az v Hv)). apply b_getv_mem; auto. }
      exists r1. split. { intros v Hv. apply R1n; auto. }
      apply mk_and_holds. split.
      + destruct (V3 r1) as (_ & V3' & _). apply V3'; [apply Hdf; auto|]. split; [exact I|]. intros f z H. rewrite (R1z f z H).
        apply evalE_agree. intros v Hv. symmetry. apply R1n, Az. apply (proj1 (occ_fv _) f _ (Hfs f (in_combine_l _ _ _ _ H))). auto.
      + apply (proj2 (mk_forall_holds M (vs_of ys) q r1)). cbn [holds]. intros r2 Ao2 Ty2. apply NNPP. intros Nq.
        assert (Bd : forall x j, In (x, j) (pairs xs nx) -> within (b_getv b x) (r2 (mn_y x j))).
        { intros x j H. apply NNPP. intros X. apply Nq. apply (proj1 (V3 r2)). apply mk_disj_holds. apply (proj1 (V2 r2)). apply V1. right. exists x, j. auto. }
        assert (R2n : forall v, ~ In v ys -> r2 v = r1 v). { intros v Hv. apply Ao2. intros X. apply Hv, Ofy; auto. }
        assert (Ux : forall x j, In (x, j) (pairs xs nx) -> updated M sub [] r2 x = r2 (mn_y x j)).
        { intros x j Hj. unfold sub. rewrite (upd_in uf rc n xs nx x j r2 N Hj); auto. apply Nb. now apply pairs_in in Hj. }
        assert (Uo : forall v, In v A -> ~ In v xs -> updated M sub [] r2 v = rho v).
        { intros v Hv Hx. unfold sub. rewrite upd_out; auto. rewrite R2n by auto. apply R1n. auto. }
        assert (IU : in_box (updated M sub [] r2) b).
        { apply box_of; [|apply Ib]. intros v Hv. destruct (in_dec var_eq_dec v xs) as [Hx|Hx]; [|rewrite Uo by auto; apply b_getv_mem; auto].
          destruct (pairs_ex xs nx v Hx) as [j Hj]. rewrite (Ux v j Hj). apply Wi; auto. }
        assert (W2 : well_typed r2). { intros v. destruct (in_dec var_eq_dec v ys) as [Hv|Hv]; [apply Ty2, Ofy; auto|rewrite (R2n v Hv); apply W1]. }
        assert (WU : well_typed (updated M sub [] r2)).
        { intros v. destruct (in_dec var_eq_dec v xs) as [Hx|Hx]; [|unfold sub; rewrite upd_out; auto]. destruct (pairs_ex xs nx v Hx) as [j Hj]. rewrite (Ux v j Hj). apply (W2 (mn_y v j)). }
        pose proof (Q r2 WU IU) as Q2. apply Und. exists (updated M sub [] r2). split; [split; [exact WU|split; [exact IU|]]|].
        * intros f Hf. destruct (C6 f Hf) as [Hc|Hc].
          -- apply NNPP. intros X. apply Nq, Q2. right. left. eauto.
          -- apply (holds_agree M f rho); auto. intros v Hv. symmetry. apply Uo; auto. apply (proj2 (occ_fv _) f _ (Hst f Hf)). auto.
        * intros f Hf. destruct (Fz f Hf) as [z Hz]. apply Rnot_le_lt. intros X. apply Nq, Q2. right. right. exists f, z. split; auto.
          rewrite R2n by (intros Y; apply Idy in Y; apply in_combine_r, Idz in Hz; lia). rewrite (R1z f z Hz). exact X.
  Qed.
End Main.

(** ** On contexts *)

Definition declared_by (ops : list cop) : list var := flat_map (fun o => match o with ODeclare v _ => [v] | _ => [] end) ops.
Lemma mn_declared ys zs psi : declared_by (mn_ops (ys, zs, psi)) = zs.
Proof.
  unfold declared_by, mn_ops. rewrite !flat_map_app. cbn [flat_map]. rewrite !app_nil_r.
  assert (E : forall l, flat_map (fun o => match o with ODeclare v _ => [v] | _ => [] end) (map ONew l) = []) by (induction l; auto). rewrite E. cbn [app].
  induction zs as [|z zs IH]; auto. cbn [flat_map app]. rewrite IH. reflexivity.
Qed.
Lemma mn_asserts ys zs psi f : In (OAssert f) (mn_ops (ys, zs, psi)) <-> f = psi.
Proof.
  unfold mn_ops. rewrite !in_app_iff, in_map_iff, in_flat_map. cbn [In]. split.
  - intros [(x & X & _)|[(z & _ & [X|[X|[]]])|[X|[]]]]; try discriminate. congruence.
  - intros ->. auto.
Qed.
Section Ctx.
  Variables (uf : nat -> list R -> R) (rc : dbl -> dbl -> R) (fpow : dbl -> dbl -> dbl) (n : nat).
  Notation M := (std uf rc).
  Theorem minimize_ctx fs c b ops t : cx_box c = Some b -> minimize fpow n fs c = (Val ops, t) -> Forall (exact M) t ->
    posed M stdD b (sv_vec (cx_stack c)) fs (cx_next c) -> forall rho, feasible M b (sv_vec (cx_stack c)) rho ->
    ((exists rho1, agree_off (declared_by ops) rho rho1 /\ forall f, In (OAssert f) ops -> holds M f rho1) <->
     undominated M b (sv_vec (cx_stack c)) fs rho).
  Proof.
    intros Eb E Ht W rho F. unfold minimize in E. rewrite Eb in E. apply bind_val in E. destruct E as ([[ys zs] psi] & t1 & t2 & E & E2 & ->). apply ret_val in E2. destruct E2 as [-> ->].
    rewrite app_nil_r in Ht. rewrite mn_declared. rewrite <- (minimize_ok uf rc fpow n b _ fs _ W ys zs psi t1 E Ht rho F).
    split; intros (r & H1 & H2); exists r; (split; [exact H1|]); [apply H2, mn_asserts; auto|]. intros f Hf. apply mn_asserts in Hf. now subst.
  Qed.
  Theorem maximize_ctx f c b ops t : cx_box c = Some b -> maximize fpow n f c = (Val ops, t) -> Forall (exact M) t ->
    posed M stdD b (sv_vec (cx_stack c)) [f] (cx_next c) -> forall rho, feasible M b (sv_vec (cx_stack c)) rho ->
    ((exists rho1, agree_off (declared_by ops) rho rho1 /\ forall f, In (OAssert f) ops -> holds M f rho1) <->
     ~ exists rho', feasible M b (sv_vec (cx_stack c)) rho' /\ (evalE M f rho' > evalE M f rho)%R).
  Proof.
    intros Eb E Ht W rho F. unfold maximize in E. apply bind_val in E. destruct E as (g & t1 & t2 & E1 & E & ->). apply Forall_app in Ht. destruct Ht as [O1 O2].
    destruct W as (W1 & W2 & W3 & W4 & W5 & W6). assert (Of := W5 f (or_introl eq_refl)).
    assert (Dg : forall r, well_typed r -> in_box r b -> defE M stdD g r /\ evalE M g r = (- evalE M f r)%R).
    { intros r H1 H2. destruct (W6 r H1 H2) as [_ D]. apply (mk_neg_ev uf rc fpow n f r (D f (or_introl eq_refl)) g t1 E1 O1). }
    assert (W : posed M stdD b (sv_vec (cx_stack c)) [g] (cx_next c)).
    { split; [exact W1|]. split; [exact W2|]. split; [exact W3|]. split; [exact W4|]. split.
      - intros h [<-|[]]. exact (occ_neg M fpow n _ _ f Of g t1 E1 O1).
      - intros r H1 H2. split; [apply W6; auto|]. intros h [<-|[]]. apply Dg; auto. }
    rewrite (minimize_ctx [g] c b ops t2 Eb E O2 W rho F). unfold undominated. destruct F as (F1 & F2 & F3). destruct (Dg rho F1 F2) as [_ V].
    split; intros H (r & (R1 & R2 & R3) & L); apply H; exists r; (split; [split; auto|]); destruct (Dg r R1 R2) as [_ V'].
    - intros h [<-|[]]. rewrite V, V'. lra.
    - specialize (L g (or_introl eq_refl)). rewrite V, V' in L. lra.
  Qed.
End Ctx.
