(** * Proofs about the refinement of counterexamples *)
From Coq Require Import ZArith Reals Lra Lia List Bool.
From Flocq Require Import IEEE754.BinarySingleNaN.
From Verif Require Import Dbl DblProofs Syntax Sem SemProofs StdInterp Interval IntervalProofs IEval IEvalProofs Contr FormulaCons MathConv ExprAlg SpecAlg ExprAlgProofs Nnf VarSet Filter FilterProofs
  Theory TheoryProofs CtxBox CtxSat Forall SpecForall Refiner SpecRefine.
Import ListNotations.
Local Open Scope R_scope.
Local Notation R := Rdefinitions.R.

Lemma NoDup_app_r {X} (l l' : list X) : NoDup (l ++ l') -> NoDup l'.
Proof. induction l as [|a l IH]; cbn [app]; auto. intros H. inversion H; auto. Qed.
(** ** Refine *)
Lemma copy_ok fvs : forall x b, box_ok b -> NoDup fvs -> incl fvs (bvars b) -> let b' := cr_copy fvs x b in
  box_ok b' /\ bvars b' = bvars b /\ (forall v, In v (bvars b) -> ~ In v fvs -> b_getv b' v = b_getv b v) /\
  (forall i v c, nth_error fvs i = Some v -> nth_error x i = Some c -> b_getv b' v = i_point c) /\
  (b_full b -> Forall (fun c => is_finite c = true) x -> b_full b').
Proof.
  cbv zeta. induction fvs as [|v fvs IH]; intros x b K Nd In_.
  - unfold cr_copy. cbn [combine fold_left]. repeat split; auto; try apply K. intros [|i] v c Hv; discriminate Hv.
  - destruct x as [|c x].
    + unfold cr_copy. cbn [combine fold_left]. repeat split; auto; try apply K. intros i w c _ Hc. destruct i; discriminate Hc.
    + change (cr_copy (v :: fvs) (c :: x) b) with (cr_copy fvs x (b_setv b v (i_point c))). inversion Nd as [|? ? Nv Nd']; subst.
      assert (Hv : In v (bvars b)) by (apply In_; left; reflexivity).
      assert (K1 : box_ok (b_setv b v (i_point c))) by (apply setv_ok; [exact K|apply mk_ival_ok]).
      destruct (IH x (b_setv b v (i_point c)) K1 Nd') as (A1 & A2 & A3 & A4 & A5). { intros w Hw. apply In_. right. exact Hw. }
      split; [exact A1|]. split; [exact A2|]. split; [|split].
      * intros w Hw Hn. rewrite (A3 w Hw); [|intros X; apply Hn; right; exact X]. apply getv_setv_ne; auto. intros ->. apply Hn. left. reflexivity.
      * intros [|i] w c' Hi Hc.
        -- cbn in Hi, Hc. assert (w = v) by congruence. assert (c' = c) by congruence. subst. rewrite (A3 v Hv Nv). apply getv_setv_eq; auto.
        -- exact (A4 i w c' Hi Hc).
      * intros Fb Fx. inversion Fx; subst. apply A5; auto. apply b_set_full; [exact Fb|]. apply (imem_nonempty (B2R c)). apply i_point_mem. assumption.
Qed.
Section Refine.
  Variables (mid : dbl -> dbl -> dbl) (nl : nlprob -> list (var * dbl) -> list dbl -> option (bool * list dbl)).
  Lemma refined o fvs b : box_ok b -> NoDup fvs -> incl fvs (bvars b) -> let b' := cr_refine mid nl o fvs b in
    box_ok b' /\ bvars b' = bvars b /\ (forall v, In v (bvars b) -> ~ In v fvs -> b_getv b' v = b_getv b v) /\
    (b' = b \/ exists p x, o = Some p /\ nl p (cr_env mid fvs b) (cr_start mid fvs b) = Some (true, x) /\ forall i v c, nth_error fvs i = Some v -> nth_error x i = Some c -> b_getv b' v = i_point c).
  Proof.
    intros K Nd Hi. cbv zeta. unfold cr_refine. destruct o as [p|]; [|repeat split; auto; apply K].
    destruct (nl p _ _) as [[[|] x]|] eqn:E; [|repeat split; auto; apply K|repeat split; auto; apply K].
    destruct (copy_ok fvs x b K Nd Hi) as (A1 & A2 & A3 & A4 & _). split; [exact A1|]. split; [exact A2|]. split; [exact A3|]. right. exists p, x. auto.
  Qed.
  Lemma refine_numbers o fvs vs : nl_numbers nl -> NoDup fvs -> incl fvs vs -> refine_ok (cr_refine mid nl o fvs) vs.
  Proof.
    intros N Nd Hi ce K F V. unfold cr_refine. destruct o as [p|]; [|auto]. destruct (nl p _ _) as [[[|] x]|] eqn:E; auto.
    rewrite <- V in Hi. destruct (copy_ok fvs x ce K Nd Hi) as (A1 & A2 & _ & _ & A5). split; [exact A1|]. split; [|congruence]. apply A5; auto. exact (proj2 (N _ _ _ _ _ E)).
  Qed.
End Refine.

(** ** The optimisation problem *)
Lemma cr_box_ok fvs : forall b, box_ok b -> NoDup fvs -> (forall v, In v fvs -> ~ In v (bvars b)) -> box_ok (fold_left b_add fvs b) /\ bvars (fold_left b_add fvs b) = bvars b ++ fvs.
Proof.
  induction fvs as [|v fvs IH]; intros b K Nd Dj; cbn [fold_left]; [rewrite app_nil_r; auto|]. inversion Nd; subst.
  destruct (IH (b_add b v)) as [A B]; auto.
  - apply b_add_ok; auto. apply Dj. left. reflexivity.
  - intros w Hw X. cbn [b_add bvars] in X. apply in_app_or in X. destruct X as [X|[X|[]]]; [exact (Dj w (or_intror Hw) X)|subst; contradiction].
  - split; [exact A|]. rewrite B. cbn [b_add bvars]. rewrite <- app_assoc. reflexivity.
Qed.
Lemma box0_ok : box_ok box0.
Proof. split; [constructor|]. split; [reflexivity|]. constructor; [|constructor]. repeat split; reflexivity. Qed.
Lemma cr_box_vars fvs : NoDup fvs -> box_ok (cr_box fvs) /\ bvars (cr_box fvs) = fvs.
Proof. intros Nd. exact (cr_box_ok fvs box0 box0_ok Nd (fun v _ => @in_nil _ v)). Qed.
(** Comparisons that are not between a variable and a literal are left alone. *)
Lemma filt_other vs f b : query_lit vs f -> (forall v, In v (fvF f) -> In v vs) \/ filter_assertion f b = Some (NotFiltered, b).
Proof.
  intros [(o & l & r & ->) H]. unfold filter_assertion. cbn [filt]. cbn [bound_lit] in H.
  assert (X : (exists v c, (l = EVar v \/ r = EVar v) /\ (match l, r with EVar v', k | k, EVar v' => v' = v /\ consts_of k <> [] | _, _ => False end) /\ c = v) \/
    (match l, r with EVar _, EConst _ | EConst _, EVar _ | EVar _, EReal _ _ _ | EReal _ _ _, EVar _ => False | _, _ => True end)).
  { destruct l, r; try (right; exact Logic.I); left;
      match goal with v : var |- _ => exists v, v; split; [auto|]; split; [split; [reflexivity|discriminate]|reflexivity] end. }
  destruct X as [(v & _ & _ & X & _)|X].
  - left. destruct l as [c|a b' k|x| | | | | |], r as [c'|a' b'' k'|x'| | | | | |]; cbn in X; try (now destruct X);
      try (destruct X as [_ X]; exfalso; apply X; reflexivity);
      (intros w Hw; cbn in Hw; destruct Hw as [<-|[]] || contradiction); eapply H; cbn [consts_of]; reflexivity.
  - right. destruct l as [c|a b' k|x| | | | | |], r as [c'|a' b'' k'|x'| | | | | |]; cbn in X; try contradiction; destruct o; reflexivity.
Qed.

Section Problem.
  Variables (uf : nat -> list R -> R) (rc : dbl -> dbl -> R).
  Notation M := (std uf rc).
  Notation D := stdD.
  Notation ev := (evalE M).
  Notation ok := (Forall (exact M)).
  Variables (fold : expr -> expr -> option dbl) (fpow : dbl -> dbl -> dbl) (n : nat) (fvs : list var).
  Hypothesis RC : rc_ok M.
  Hypothesis Nd : NoDup fvs.

  Lemma not_mixed f : (forall v, In v (fvF f) -> In v fvs) -> mixed fvs f = false.
  Proof. intros H. unfold mixed. destruct (existsb _ _) eqn:E; [|reflexivity]. apply existsb_exists in E. destruct E as (v & Hv & E). apply H in Hv. apply mem_var_In in Hv. rewrite Hv in E. discriminate. Qed.
  Lemma cr_filter_ok rho : forall fs b b' fs', box_ok b -> bvars b = fvs -> (forall f, In f fs -> query_lit fvs f /\ finF f) -> cr_filter fs b = Some (b', fs') ->
    box_ok b' /\ bvars b' = fvs /\ (in_box rho b' -> in_box rho b) /\ incl fs' fs /\
    (in_box rho b -> (forall f, In f fs -> holds M f rho /\ gap_free f rho) -> in_box rho b') /\
    (in_box rho b' -> (forall f, In f fs -> exact_if_bound f) -> forall f, In f fs -> In f fs' \/ holds M f rho) /\
    filter (mixed fvs) fs' = filter (mixed fvs) fs.
  Proof.
    induction fs as [|f fs IH]; intros b b' fs' K V Q E; cbn [cr_filter] in E.
    - assert (b' = b) by congruence. assert (fs' = []) by congruence. subst b' fs'. split; [exact K|]. split; [exact V|]. split; [auto|]. split; [intros x []|]. split; [auto|]. split; [intros _ _ f []|reflexivity].
    - destruct (filter_assertion f b) as [[r b1]|] eqn:Ef; cbn [IEval.bind snd fst] in E; [|discriminate].
      destruct (cr_filter fs b1) as [[b2 fs2]|] eqn:E2; cbn [IEval.bind snd fst] in E; [|discriminate].
      assert (b' = b2) by congruence. assert (Z : fs' = match r with NotFiltered => f :: fs2 | _ => fs2 end) by congruence. subst b' fs'. clear E.
      destruct (Q f (or_introl eq_refl)) as [Qf Ff].
      assert (S1 : box_ok b1 /\ bvars b1 = bvars b /\ (in_box rho b1 -> in_box rho b) /\ (in_box rho b -> holds M f rho -> gap_free f rho -> in_box rho b1) /\
         (r <> NotFiltered -> in_box rho b1 -> exact_if_bound f -> holds M f rho) /\ (r <> NotFiltered -> mixed fvs f = false)).
      { destruct (filt_other fvs f b Qf) as [I|I].
        - rewrite <- V in I. destruct (filter_shrinks M f b b1 r RC K I Ff Ef) as (A1 & A2 & A3). split; [exact A1|]. split; [exact A2|]. split; [apply A3|].
          split; [intros; now apply (filter_keeps M f b b1 r RC K I Ff Ef rho)|]. split; [|intros _; apply not_mixed; rewrite <- V; exact I].
          intros Hr Hb Hx. apply (filter_exact M f b b1 r RC K I Ff Ef Hr); [|exact Hb].
          destruct Qf as [(o & l & rr & ->) _]. unfold exact_if_bound in Hx. cbn [bound_lit] in Hx.
          unfold filter_assertion in Ef. cbn [filt] in Ef.
          assert (Z : match l, rr with EVar v, k | k, EVar v => consts_of k <> [] | _, _ => False end).
          { destruct l as [c|a b' k|x| | | | | |], rr as [c'|a' b'' k'|x'| | | | | |]; cbn [consts_of]; try discriminate;
              exfalso; destruct o; cbn in Ef; apply Hr; congruence. }
          destruct l as [c|a b' k|x| | | | | |], rr as [c'|a' b'' k'|x'| | | | | |]; cbn [consts_of] in Z; try contradiction; try (exfalso; apply Z; reflexivity); eapply Hx; cbn [consts_of]; reflexivity.
        - rewrite I in Ef. assert (b1 = b) by congruence. assert (r = NotFiltered) by congruence. subst b1 r. split; [exact K|]. split; [reflexivity|]. split; [auto|]. split; [auto|]. split; intros X; exfalso; apply X; reflexivity. }
      destruct S1 as (K1 & V1 & B1 & C1 & D1 & F1). destruct (IH b1 b2 fs2 K1) as (A1 & A2 & A3 & A4 & A5 & A6 & A7); [congruence|intros g Hg; apply Q; right; exact Hg|exact E2|].
      split; [exact A1|]. split; [exact A2|]. split; [auto|]. split; [|split; [|split]].
      + intros g Hg. destruct r; [destruct Hg as [<-|Hg]; [left; reflexivity|right; auto]|right; auto|right; auto].
      + intros Hb H. apply A5; [|intros g Hg; apply H; right; exact Hg]. destruct (H f (or_introl eq_refl)). auto.
      + intros Hb Hx g [<-|Hg].
        * destruct r; [left; left; reflexivity| |]; right; apply D1; auto; try discriminate; apply Hx; left; reflexivity.
        * destruct (A6 Hb (fun h Hh => Hx h (or_intror Hh)) g Hg) as [X|X]; [left|right; exact X]. destruct r; [right; exact X|exact X|exact X].
      + destruct r; cbn [filter]; [rewrite A7; reflexivity| |]; rewrite F1 by discriminate; exact A7.
  Qed.

  Definition weaken (o : relop) : relop := match o with RGt => RGeq | RLt => RLeq | _ => o end.
  Lemma relaxed_R o a b rho : relaxed M (FRel o a b) rho = relR (weaken o) (ev a rho) (ev b rho).
  Proof. destruct o; reflexivity. Qed.
  Lemma relaxes f rho : (exists o a b, f = FRel o a b) -> holds M f rho -> relaxed M f rho.
  Proof. intros (o & a & b & ->) H. change (relR o (ev a rho) (ev b rho)) in H. rewrite relaxed_R. destruct o; cbn [weaken relR] in *; lra. Qed.
  Definition meets (rho : env) (f : formula) (q : bool * expr) : Prop := (if fst q then ev (snd q) rho = 0 else ev (snd q) rho <= 0) <-> relaxed M f rho.
  Lemma add_rel_ok rho f p p' t : defF M D f rho -> add_rel fpow n f p = (Val p', t) -> ok t -> exists q, nl_cons p' = nl_cons p ++ [q] /\ nl_box p' = nl_box p /\ nl_slsqp p' = nl_slsqp p /\ nl_obj p' = nl_obj p /\ meets rho f q.
  Proof.
    destruct f as [| | |o a b| | | |]; cbn [add_rel]; try discriminate. intros [Da Db] E Ht.
    assert (G : forall x y (eq : bool), defE M D x rho -> defE M D y rho -> bind (mk_sub fpow n x y) (fun c => ret (nl_add p eq c)) = (Val p', t) ->
      exists c, p' = nl_add p eq c /\ ev c rho = ev x rho - ev y rho).
    { intros x y eq Dx Dy E'. destruct (bind_val _ _ _ _ E') as (c & t1 & t2 & E1 & E2 & ->). apply Forall_app in Ht. destruct (mk_sub_ev uf rc fpow n x y rho Dx Dy _ _ E1 (proj1 Ht)) as [_ V].
      exists c. split; [unfold ret in E2; congruence|exact V]. }
    destruct o; cbn [add_rel] in E; try discriminate;
      match type of E with bind (mk_sub _ _ ?x ?y) _ = _ => destruct (G x y _ ltac:(assumption) ltac:(assumption) E) as (c & -> & V) end;
      eexists; (split; [reflexivity|]); (split; [reflexivity|]); (split; [reflexivity|]); (split; [reflexivity|]); unfold meets; cbn [fst snd]; rewrite V, relaxed_R; cbn [weaken relR]; split; intros; lra.
  Qed.
  Fixpoint total (rho : env) (fs : list formula) : R := match fs with [] => 0 | f :: fs' => violation M f rho + total rho fs' end.
  Lemma cr_obj_ok rho f o o' t : defF M D f rho -> defE M D o rho -> cr_obj fpow n fvs f o = (Val o', t) -> ok t -> (exists p a b, f = FRel p a b) ->
    defE M D o' rho /\ ev o' rho = ev o rho + total rho (filter (mixed fvs) [f]).
  Proof.
    intros Df Do E Ht (p & a & b & ->). unfold cr_obj in E. cbn [filter].
    assert (Z : forallb (fun v => mem_var v fvs) (fvF (FRel p a b)) = negb (mixed fvs (FRel p a b))).
    { unfold mixed. generalize (fvF (FRel p a b)). intros l. induction l as [|v l IH]; cbn [forallb existsb]; [reflexivity|]. rewrite IH. destruct (mem_var v fvs); reflexivity. }
    rewrite Z in E. destruct (mixed fvs (FRel p a b)); cbn [negb total] in *; [|assert (o' = o) by (unfold ret in E; congruence); subst; split; [exact Do|lra]].
    destruct Df as [Da Db].
    assert (G : forall x y, defE M D x rho -> defE M D y rho -> bind (mk_sub fpow n x y) (fun d => mk_add fpow n o d) = (Val o', t) -> defE M D o' rho /\ ev o' rho = ev o rho + (ev x rho - ev y rho)).
    { intros x y Dx Dy E'. destruct (bind_val _ _ _ _ E') as (c & t1 & t2 & E1 & E2 & ->). apply Forall_app in Ht. destruct Ht as [Ht1 Ht2]. destruct (mk_sub_ev uf rc fpow n x y rho Dx Dy _ _ E1 Ht1) as [Dc V].
      destruct (mk_add_ev uf rc fpow n o c rho Do Dc _ _ E2 Ht2) as [D2 V2]. split; [exact D2|]. rewrite V2, V. reflexivity. }
    destruct p; cbn [violation]; try (assert (o' = o) by (unfold ret in E; congruence); subst; split; [exact Do|lra]);
      match type of E with bind (mk_sub _ _ ?x ?y) _ = _ => destruct (G x y ltac:(assumption) ltac:(assumption) E) as [X Y] end; (split; [exact X|]); rewrite Y; lra.
  Qed.
  Lemma total_app rho l l' : total rho (l ++ l') = total rho l + total rho l'.
  Proof. induction l as [|f l IH]; cbn [app total]; [lra|rewrite IH; lra]. Qed.
  Lemma cr_loop_ok rho : forall fs o p r t, (forall f, In f fs -> defF M D f rho /\ exists q a b, f = FRel q a b) -> defE M D o rho -> cr_loop fpow n fvs fs o p = (Val r, t) -> ok t ->
    defE M D (fst r) rho /\ ev (fst r) rho = ev o rho + total rho (filter (mixed fvs) fs) /\ nl_box (snd r) = nl_box p /\ nl_slsqp (snd r) = nl_slsqp p /\ nl_obj (snd r) = nl_obj p /\
    exists l, nl_cons (snd r) = nl_cons p ++ l /\ Forall2 (meets rho) fs l.
  Proof.
    induction fs as [|f fs IH]; intros o p r t H Do E Ht; cbn [cr_loop] in E.
    - assert (r = (o, p)) by (unfold ret in E; congruence). subst r. cbn [fst snd filter total]. repeat split; auto; [lra|]. exists []. split; [rewrite app_nil_r; reflexivity|constructor].
    - destruct (bind_val _ _ _ _ E) as (o1 & t1 & t2 & E1 & E2 & ->). apply Forall_app in Ht. destruct Ht as [Ht1 Ht2].
      destruct (bind_val _ _ _ _ E2) as (p1 & t3 & t4 & E3 & E4 & ->). apply Forall_app in Ht2. destruct Ht2 as [Ht3 Ht4].
      destruct (H f (or_introl eq_refl)) as [Df Rf]. destruct (cr_obj_ok rho f o o1 t1 Df Do E1 Ht1 Rf) as [D1 V1].
      destruct (add_rel_ok rho f p p1 t3 Df E3 Ht3) as (q & C1 & B1 & S1 & O1 & Mq).
      destruct (IH o1 p1 r t4 (fun g Hg => H g (or_intror Hg)) D1 E4 Ht4) as (A1 & A2 & A3 & A4 & A5 & l & A6 & A7).
      split; [exact A1|]. split; [|split; [congruence|split; [congruence|split; [congruence|]]]].
      + rewrite A2, V1. change (f :: fs) with ([f] ++ fs). rewrite filter_app, total_app. lra.
      + exists (q :: l). split; [rewrite A6, C1, <- app_assoc; reflexivity|constructor; auto].
  Qed.

  Variables (q : formula) (p : nlprob) (t : list step) (rho : env).
  Hypothesis Qq : forall f, In f (cr_query q) -> query_lit fvs f /\ finF f /\ defF M D f rho.
  Hypothesis Eq : cr_new fpow n q fvs = (Val (Some p), t).
  Hypothesis Ht : ok t.
  Lemma problem_shape : exists b fs o l, cr_filter (cr_query q) (cr_box fvs) = Some (b, fs) /\ nl_box p = b /\ nl_slsqp p = is_diffF q /\ nl_cons p = l /\ Forall2 (meets rho) fs l /\
    nl_obj p = (if is_zeroE o then None else Some o) /\ ev o rho = total rho (filter (mixed fvs) fs).
  Proof.
    unfold cr_new in Eq. destruct (cr_filter (cr_query q) (cr_box fvs)) as [[b fs]|] eqn:Ef; [|discriminate]. destruct fs as [|f0 fs0]; [discriminate|]. set (fs := f0 :: fs0) in *.
    destruct (bind_val _ _ _ _ Eq) as (r & t1 & t2 & E1 & E2 & Z). rewrite Z in Ht. apply Forall_app in Ht. destruct Ht as [Ht1 _].
    destruct (cr_box_vars fvs Nd) as [K V].
    destruct (cr_filter_ok rho _ _ _ _ K V (fun f Hf => conj (proj1 (Qq f Hf)) (proj1 (proj2 (Qq f Hf)))) Ef) as (_ & _ & _ & Inc & _ & _ & _).
    destruct (cr_loop_ok rho fs (EConst dzero) (mkNl (is_diffF q) b None []) r t1) as (A1 & A2 & A3 & A4 & A5 & l & A6 & A7); [|exact Logic.I|exact E1|exact Ht1|].
    { intros f Hf. apply Inc in Hf. destruct (Qq f Hf) as (Q1 & _ & Q3). split; [exact Q3|apply Q1]. }
    exists b, fs, (fst r), l. split; [reflexivity|].
    assert (Ep : p = if is_zeroE (fst r) then snd r else mkNl (nl_slsqp (snd r)) (nl_box (snd r)) (Some (fst r)) (nl_cons (snd r))) by (unfold ret in E2; congruence).
    cbn [nl_box nl_slsqp nl_obj nl_cons app evalE] in *. rewrite Ep. assert (Z0 : B2R dzero = 0) by reflexivity.
    destruct (is_zeroE (fst r)); cbn [nl_box nl_slsqp nl_obj nl_cons]; repeat split; auto; rewrite A2, Z0; lra.
  Qed.
  Lemma problem_covers : in_box rho (cr_box fvs) -> (forall f, In f (cr_query q) -> holds M f rho /\ gap_free f rho) -> feasible M p rho.
  Proof.
    intros Hb Hq. destruct problem_shape as (b & fs & o & l & Ef & Eb & _ & El & F2 & _ & _). destruct (cr_box_vars fvs Nd) as [K V].
    destruct (cr_filter_ok rho _ _ _ _ K V (fun f Hf => conj (proj1 (Qq f Hf)) (proj1 (proj2 (Qq f Hf)))) Ef) as (_ & _ & _ & Inc & A5 & _ & _).
    split; [rewrite Eb; apply A5; auto|]. rewrite El. clear Eb Ef.
    assert (Rf : forall f, In f fs -> relaxed M f rho).
    { intros f Hf. apply Inc in Hf. apply relaxes; [apply (Qq f Hf)|apply (Hq f Hf)]. }
    clear Inc El. induction F2 as [|f [e c] fs l M1 F2 IH]; [intros ? ? []|]. intros e' c' [X|X].
    - assert (e' = e) by congruence. assert (c' = c) by congruence. subst. apply M1. apply Rf. left. reflexivity.
    - apply IH; [intros g Hg; apply Rf; right; exact Hg|exact X].
  Qed.
  Lemma problem_means : feasible M p rho -> (forall f, In f (cr_query q) -> exact_if_bound f) -> in_box rho (cr_box fvs) /\ forall f, In f (cr_query q) -> relaxed M f rho.
  Proof.
    intros [Hb Hc] Hx. destruct problem_shape as (b & fs & o & l & Ef & Eb & _ & El & F2 & _ & _). destruct (cr_box_vars fvs Nd) as [K V].
    destruct (cr_filter_ok rho _ _ _ _ K V (fun f Hf => conj (proj1 (Qq f Hf)) (proj1 (proj2 (Qq f Hf)))) Ef) as (_ & _ & A3 & Inc & _ & A6 & _).
    rewrite Eb in Hb. split; [exact (A3 Hb)|]. intros f Hf. destruct (A6 Hb Hx f Hf) as [X|X].
    - rewrite El in Hc. clear - F2 X Hc. induction F2 as [|g [e c] fs l M1 F2 IH]; [contradiction|]. destruct X as [->|X].
      + apply M1. cbn [fst snd]. exact (Hc e c (or_introl eq_refl)).
      + apply IH; [intros e' c' H; apply Hc; right; exact H|exact X].
    - apply relaxes; [apply (Qq f Hf)|exact X].
  Qed.
  Lemma problem_objective : objective M p rho = fold_right Rplus 0 (map (fun f => violation M f rho) (filter (mixed fvs) (cr_query q))).
  Proof.
    destruct problem_shape as (b & fs & o & l & Ef & _ & _ & _ & _ & Eo & Ev). destruct (cr_box_vars fvs Nd) as [K V].
    destruct (cr_filter_ok rho _ _ _ _ K V (fun f Hf => conj (proj1 (Qq f Hf)) (proj1 (proj2 (Qq f Hf)))) Ef) as (_ & _ & _ & _ & _ & _ & A7).
    assert (Et : total rho (filter (mixed fvs) fs) = fold_right Rplus 0 (map (fun f => violation M f rho) (filter (mixed fvs) (cr_query q)))).
    { rewrite A7. generalize (filter (mixed fvs) (cr_query q)). intros m. induction m as [|f m IH]; cbn [total map fold_right]; [reflexivity|rewrite IH; reflexivity]. }
    rewrite <- Et, <- Ev. unfold objective. rewrite Eo. destruct (is_zeroE o) eqn:Z; [|reflexivity]. destruct o as [c| | | | | | | |]; try discriminate. cbn [is_zeroE evalE] in *. clear - Z.
    unfold deq in Z. destruct c as [s|s| |s m e He]; try discriminate; destruct s; try reflexivity; discriminate.
  Qed.
End Problem.

(** The starting point and the values of the other variables, for a box that lists the quantified variables in their order *)
Lemma start_mid mid fvs b : filter (fun v => mem_var v fvs) (bvars b) = fvs ->
  (forall i v, nth_error fvs i = Some v -> nth_error (cr_start mid fvs b) i = Some (i_midd mid (b_getv b v))) /\ length (cr_start mid fvs b) = length fvs /\
  (forall v c, In (v, c) (cr_env mid fvs b) <-> In v (bvars b) /\ ~ In v fvs /\ c = i_midd mid (b_getv b v)).
Proof.
  intros E. unfold cr_start. rewrite E. split; [|split; [apply map_length|]].
  - intros i v H. now apply (map_nth_error (fun v => i_midd mid (b_getv b v))).
  - intros v c. unfold cr_env. rewrite in_map_iff. split.
    + intros (w & Ew & Hw). apply filter_In in Hw. destruct Hw as [Hw Nw]. assert (w = v) by congruence. assert (c = i_midd mid (b_getv b w)) by congruence. subst w c. split; [exact Hw|]. split; [|reflexivity].
      intros X. apply CtxSat.mem_var_In in X. rewrite X in Nw. discriminate.
    + intros (Hv & Nv & ->). exists v. split; [reflexivity|]. apply filter_In. split; [exact Hv|]. destruct (mem_var v fvs) eqn:M; [|reflexivity]. apply CtxSat.mem_var_In in M. contradiction.
Qed.
