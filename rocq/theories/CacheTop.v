(** * Unsat answers of a context whose theory solver caches (C01, C48) *)
From Coq Require Import ZArith Reals List Bool Arith.
From Flocq Require Import IEEE754.BinarySingleNaN.
From Verif Require Import Dbl DblProofs Syntax Sem SemProofs FormulaCons FormulaConsProofs SpecForm Interval IntervalProofs MathConv MathConvProofs IEval IEvalProofs Contr ContrProofs IbexConv IbexConvProofs Icp IcpProofs IcpPar Filter Theory TheoryUsed TheoryTop
  Scoped IteElim SpecIte Regular Wff Sat Context SpecCtx CtxSem CtxRun CtxInv CtxTop Cache SpecCache CacheProofs CacheLink CacheCtx.
Import ListNotations.

Lemma search_local mid srch : a_search mid srch -> local_search srch.
Proof. intros [(k & lf & ->)|(lf & jobs & sched & _ & ->)]; [apply by_seq_local|apply by_par_local]. Qed.

Section Top.
  Variables (M : interp) (D : pdom) (fold : expr -> expr -> option dbl).
  Variables (esub : expr -> expr -> expr) (eneg : expr -> expr) (n : nat) (A : iarith) (L : ibex).
  Variable fa : dbl -> list var -> formula -> box -> option (list ival).
  Variable fe : dbl -> formula -> box -> option (etype * ival).
  Variables (term : list ival -> list ival -> bool) (m : nat) (mid : dbl -> dbl -> dbl).
  Variable srch : nat -> (cstat -> option cstat) -> (formula -> box -> option (etype * ival)) -> dbl -> list formula -> cstat -> option (bool * cstat).
  Hypothesis Hs : a_search mid srch.
  Hypothesis RC : rc_ok M.
  Hypothesis Hm : mid_ok mid.
  Hypothesis HL : ibex_ok M D L.
  Hypothesis HN : eneg_faithful M D eneg.
  Hypothesis HS : sqrt_ok M D.
  Hypothesis HA : ia_ok M D A.
  Hypothesis HD : esub_ok M D esub.
  Notation FT := (fresh_T esub eneg n L fa fe (rel_eval A esub) term m srch).

  Lemma prune_vars_lit Orc k : forall cs V, Forall (fun c => match c with CFwd _ | CInteger _ => True | _ => False end) cs -> forall s s', bvars (cs_box s) = V -> prune Orc term k (CFix cs) s = Some s' -> bvars (cs_box s') = V.
  Proof.
    intros cs V Hc. destruct k as [|k]; [discriminate|]. intros s s' Hv E. cbn [prune] in E. rewrite fix_loop_fns in E.
    refine (proj2 (fix_fns_ext term V (map (prune Orc term k) cs) (map (prune Orc term k) cs) _ k) s s' Hv E).
    clear E. induction Hc as [|c cs Hc1 _ IH]; cbn [map]; constructor; [|exact IH]. split; [reflexivity|]. clear - Hc1. intros s s' Hv E.
    destruct c; try contradiction; (destruct k as [|k]; [discriminate|]); cbn [prune] in E.
    - match type of E with Some ?y = _ => assert (X : s' = y) by congruence end. rewrite X, int_vars. exact Hv.
    - match type of E with Some ?y = _ => assert (X : s' = y) by congruence end. rewrite X, fwd_vars. exact Hv.
  Qed.
  (** On literals without quantifiers the evaluators for quantified ones play no part. *)
  Lemma build_shape fs : (forall f, In f fs -> is_forall f = false) -> forall s acc s' l, build_loop esub eneg n fs s acc = Some (s', Some l) ->
    Forall (fun c => match c with CFwd _ | CId => True | _ => False end) acc -> Forall (fun c => match c with CFwd _ | CId => True | _ => False end) l.
  Proof.
    induction fs as [|f fs IH]; intros Hf s acc s' l E Ha; cbn [build_loop] in E; [congruence|]. destruct (filter_assertion f (cs_box s)) as [[r b']|]; cbn [bind] in E; [|discriminate].
    assert (Hf' : forall g, In g fs -> is_forall g = false) by (intros g Hg; apply Hf; right; exact Hg).
    destruct r; [|destruct (b_empty b'); [discriminate|]; exact (IH Hf' _ _ _ _ E Ha)|exact (IH Hf' _ _ _ _ E Ha)].
    unfold lit_ctc in E. rewrite (Hf f (or_introl eq_refl)) in E. unfold mk_fwd in E.
    destruct (ibex_convert esub eneg (bvars b') n f) as [[q|]| | |]; cbn [bind] in E; try discriminate; refine (IH Hf' _ _ _ _ E _); apply Forall_app; (split; [exact Ha|repeat constructor]).
  Qed.
  Lemma build_vars fs : forall s acc s' o, build_loop esub eneg n fs s acc = Some (s', Some o) -> bvars (cs_box s') = bvars (cs_box s).
  Proof.
    induction fs as [|f fs IH]; intros s acc s' o E; cbn [build_loop] in E; [congruence|]. destruct (filter_assertion f (cs_box s)) as [[r b']|] eqn:Ef; cbn [bind] in E; [|discriminate].
    rewrite <- (filter_vars _ _ _ _ Ef). destruct r.
    - destruct (lit_ctc esub eneg n (bvars b') f) as [c|]; cbn [bind] in E; [|discriminate]. rewrite (IH _ _ _ _ E). destruct (b_eqb _ _); [reflexivity|now rewrite au_box].
    - destruct (b_empty b'); [discriminate|]. rewrite (IH _ _ _ _ E), au_box. reflexivity.
    - rewrite (IH _ _ _ _ E). reflexivity.
  Qed.
  Lemma ft_plain p t b fs : (forall f, In f fs -> is_forall f = false) ->
    FT p t b fs = theory_check esub eneg n false false (fun c s => srch t (prune (orc_at esub eneg n L fa p) term m c) (rel_eval A esub) p fs s) b fs.
  Proof.
    intros Hf. assert (Ev : forall f b, In f fs -> ev_at fe (rel_eval A esub) p f b = rel_eval A esub f b) by (intros f b' Hi; unfold ev_at; rewrite (Hf f Hi); reflexivity).
    unfold fresh_T, theory_check, build_contractor. destruct fs as [|f0 fs0].
    - cbn [bind]. rewrite (search_local mid srch Hs t (bvars b) _ (prune (orc_at esub eneg n L fa p) term m (mk_integer b)) _ (rel_eval A esub) p [] (cs_new b None)); auto.
      intros s s' Hv E. destruct m as [|k]; [discriminate|]. unfold mk_integer in E. destruct (existsb _ _); cbn [prune] in E; [|congruence].
      match type of E with Some ?y = _ => assert (X : s' = y) by congruence end. rewrite X, int_vars. exact Hv.
    - destruct (build_loop esub eneg n (f0 :: fs0) (cs_new b None) []) as [[s1 [l|]]|] eqn:Eb; cbn [bind]; [|reflexivity|reflexivity].
      assert (Vs := build_vars _ _ _ _ _ Eb). cbn [cs_new cs_box] in Vs.
      rewrite (search_local mid srch Hs t (bvars b) _ (prune (orc_at esub eneg n L fa p) term m (mk_fix (l ++ [mk_integer (cs_box s1)]))) _ (rel_eval A esub) p (f0 :: fs0) s1); auto.
      intros s s' Hv E. assert (Sh := build_shape _ Hf _ _ _ _ Eb (Forall_nil _)).
      assert (Fl : Forall (fun c => match c with CFwd _ | CInteger _ => True | _ => False end) (c_flatten (l ++ [mk_integer (cs_box s1)]))).
      { unfold c_flatten. rewrite flat_map_app. apply Forall_app. split.
        - clear - Sh. induction Sh as [|c l Hc _ IH]; cbn [flat_map]; [constructor|]. destruct c; try contradiction; cbn [app]; [exact IH|constructor; [exact I|exact IH]].
        - cbn [flat_map]. unfold mk_integer. destruct (existsb _ _); repeat constructor. }
      unfold mk_fix in E. destruct (c_flatten (l ++ [mk_integer (cs_box s1)])) as [|c l1] eqn:El.
      + destruct m as [|k]; [discriminate|]. cbn [prune] in E. congruence.
      + exact (prune_vars_lit _ _ _ _ Fl s s' Hv E).
  Qed.
  Lemma T_fresh p : T_sound M D fold (FT p) False (fun _ => True) (fun v => false = true -> is_int_type (vty v) = false).
  Proof.
    intros t b fs E Kb Rg Hv Hl Et.
    assert (Nq : forall f, In f fs -> is_forall f = false).
    { intros f Hf. destruct (Hl f Hf) as (a & Ka & (W & _) & _ & Ef). destruct Ka as [(x & y & -> & _)|[(x & y & -> & _)|[(x & y & -> & _)|(vs & g & ->)]]]; try (exfalso; destruct W as [[[? []] _] _]); destruct Ef as [->| ->]; reflexivity. }
    rewrite (ft_plain p t b fs Nq) in Et. destruct Hs as [(k & lf & ->)|(lf & jobs & sched & J & ->)].
    - exact (T_seq M D fold esub eneg n A L (fun f b => fa p (bvars b) f b) term m mid p false RC Hm HL HN HS HA HD k lf t b fs E Kb Rg Hv Hl Et).
    - exact (T_par M D fold esub eneg n A L (fun f b => fa p (bvars b) f b) term m mid p false RC Hm HL HN HS HA HD lf jobs sched J t b fs E Kb Rg Hv Hl Et).
  Qed.
  Theorem cached_unsat K pico nx p ops x c a : pico_ok pico -> two_phase (map KOp ops) ->
    k_run esub eneg n L fa fe (rel_eval A esub) term m srch fold K pico mid (map KOp ops) p (cx_init nx) cache0 = Some (x, c, a) -> admissible M D fold K nx ops [] (p_empty, []) ->
    Forall2 (fun q r => r = None -> ~ exists rho, solution M D q rho) (problems ops (p_empty, [])) a.
  Proof.
    intros HP Tp E Ad. generalize (two_phase_run esub eneg n L fa fe (rel_eval A esub) term m srch (search_local mid srch Hs) fold K pico mid (map KOp ops) p nx Tp). rewrite E. intros E'. symmetry in E'. rewrite p_run_plain in E'.
    refine (unsat_top M D fold mid p false RC K pico nx (FT p) HP (T_fresh p) ops x a E' Ad _). intros C. discriminate.
  Qed.
End Top.

Theorem run_theory esub eneg n L fa fe rel term m mid srch t qs : a_search mid srch -> unchanged qs ->
  match tc_run esub eneg n L fa fe rel term m srch t qs cache0 with Some (_, rs) => Some rs | None => None end =
  all_of (map (fun x => fresh_T esub eneg n L fa fe rel term m srch (q_prec (snd x)) (fst x) (q_box (snd x)) (q_lits (snd x))) (combine (seq t (length qs)) qs)).
Proof.
  intros Hs U. rewrite (cache_unobservable _ _ _ _ _ _ _ _ _ _ t qs U). f_equal. clear U. revert t. induction qs as [|q qs IH]; intros t; cbn [fresh_run length seq combine map fst snd]; [reflexivity|].
  rewrite (fresh_link _ _ _ _ _ _ _ _ _ _ (search_local mid srch Hs) t q), IH. reflexivity.
Qed.
