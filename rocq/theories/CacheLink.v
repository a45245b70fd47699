(** * A theory solver with empty caches is the theory solver of Theory.v (C48) *)
From Coq Require Import ZArith List Bool Arith Lia.
From Flocq Require Import IEEE754.BinarySingleNaN.
From Verif Require Import Dbl Syntax Sem SemProofs FormulaCons FormulaConsProofs Interval MathConv IEval Contr ContrProofs IbexConv Icp IcpPar Filter Theory Scoped IteElim Sat Context Cache SpecCache CacheProofs.
Import ListNotations.

(** ** The searches depend on the pruner and the evaluators only on the boxes and formulas they meet *)
Section Ext.
  Variables (V : list var) (pr pr' : cstat -> option cstat) (ev ev' : formula -> box -> option (etype * ival)) (mid : dbl -> dbl -> dbl) (precision : dbl) (fs : list formula).
  Hypothesis Hp : forall s, bvars (cs_box s) = V -> pr s = pr' s.
  Hypothesis Hk : forall s s', bvars (cs_box s) = V -> pr s = Some s' -> bvars (cs_box s') = V.
  Hypothesis He : forall f b, In f fs -> ev f b = ev' f b.

  Lemma eval_ext l : incl l fs -> forall s act, eval_loop ev precision l s act = eval_loop ev' precision l s act.
  Proof.
    induction l as [|f l IH]; intros Sub s act; cbn [eval_loop]; [reflexivity|]. rewrite <- He by (apply Sub; left; reflexivity).
    assert (Sub' : incl l fs) by (intros x Hx; apply Sub; right; exact Hx). destruct (ev f (cs_box s)) as [[[] i]|]; auto.
  Qed.
  Lemma eval_vars l : forall s act s', eval_loop ev precision l s act = EUnsat s' -> bvars (cs_box s') = bvars (cs_box s).
  Proof.
    induction l as [|f l IH]; intros s act s'; cbn [eval_loop]; [discriminate|]. destruct (ev f (cs_box s)) as [[[] i]|]; try discriminate; try apply IH.
    intros E. assert (X : s' = add_used (cs_with_box s (b_set_empty (cs_box s))) f) by congruence. rewrite X, au_box. reflexivity.
  Qed.
  Lemma bisect_vars b i l r : b_bisect mid b i = Some (l, r) -> bvars l = bvars b /\ bvars r = bvars b.
  Proof.
    unfold b_bisect. destruct (nth_error (bvars b) i) as [v|]; [|discriminate]. destruct (b_get b i) as [|x y]; [discriminate|]. destruct (i_bisectable mid (IV x y)); [|discriminate].
    destruct (vty v); try discriminate.
    - destruct (bisect_cont mid x y) as [p q]. intros E. assert (E1 : l = b_set b i p) by congruence. assert (E2 : r = b_set b i q) by congruence. rewrite E1, E2. auto.
    - destruct (bisect_int mid x y) as [p q]. intros E. assert (E1 : l = b_set b i p) by congruence. assert (E2 : r = b_set b i q) by congruence. rewrite E1, E2. auto.
    - destruct (bisect_int mid x y) as [p q]. intros E. assert (E1 : l = b_set b i p) by congruence. assert (E2 : r = b_set b i q) by congruence. rewrite E1, E2. auto.
  Qed.
  Definition o_vars (o : Icp.outcome) : Prop :=
    match o with Infeasible s | Accept s => bvars (cs_box s) = V | Split _ l r s => bvars l = V /\ bvars r = V /\ bvars (cs_box s) = V end.
  Lemma step_ext s : bvars (cs_box s) = V ->
    icp_step pr ev (branch_largest mid) precision fs s = icp_step pr' ev' (branch_largest mid) precision fs s /\
    forall o, icp_step pr ev (branch_largest mid) precision fs s = Some o -> o_vars o.
  Proof.
    intros Hs. unfold icp_step. rewrite <- (Hp s Hs). destruct (pr s) as [s1|] eqn:E1; cbn [bind]; [|split; [reflexivity|discriminate]].
    assert (V1 := Hk s s1 Hs E1). destruct (b_empty (cs_box s1)); [split; [reflexivity|intros o E; injection E as <-; exact V1]|].
    unfold eval_box. rewrite <- (eval_ext fs (incl_refl _)). destruct (eval_loop ev precision fs s1 bits0) as [|s2|act] eqn:E2.
    - split; [reflexivity|discriminate].
    - split; [reflexivity|]. intros o E. injection E as <-. cbn [o_vars]. rewrite (eval_vars _ _ _ _ E2). exact V1.
    - destruct (bits_none _ act); [split; [reflexivity|intros o E; injection E as <-; exact V1]|]. split; [reflexivity|].
      unfold branch_largest. destruct (snd (find_max_diam mid (cs_box s1) act)) as [i|].
      + destruct (b_bisect mid (cs_box s1) i) as [[l r]|] eqn:Eb; cbn [bind]; [|discriminate]. intros o E. injection E as <-. cbn [o_vars].
        destruct (bisect_vars _ _ _ _ Eb) as [-> ->]. auto.
      + cbn [bind]. intros o E. injection E as <-. exact V1.
  Qed.
  Lemma loop_ext k : forall st lf s, Forall (fun x : box * option nat => bvars (fst x) = V) st ->
    icp_loop pr ev (branch_largest mid) precision k fs st lf s = icp_loop pr' ev' (branch_largest mid) precision k fs st lf s.
  Proof.
    induction k as [|k IH]; intros st lf s Hst; cbn [icp_loop]; [reflexivity|]. destruct Hst as [|[b bp] st Hb Hst]; [reflexivity|]. cbn [fst] in Hb.
    destruct (step_ext (mkCs b bp (cs_out s) (cs_used s) (cs_wit s)) Hb) as [E Ho]. rewrite <- E.
    destruct (icp_step pr ev (branch_largest mid) precision fs _) as [o|]; cbn [bind]; [|reflexivity]. specialize (Ho o eq_refl).
    destruct o as [s1|s1|d l r s1]; cbn [o_vars] in Ho; [apply IH; exact Hst|reflexivity|]. destruct Ho as (Hl & Hr & _).
    apply IH. destruct lf; repeat (constructor; auto).
  Qed.
  Lemma seq_ext k lf s : bvars (cs_box s) = V -> icp_seq pr ev (branch_largest mid) precision k fs lf s = icp_seq pr' ev' (branch_largest mid) precision k fs lf s.
  Proof. intros H. unfold icp_seq. apply loop_ext. constructor; [exact H|constructor]. Qed.

  (** Parallel search *)
  Definition pc_vars (p : pc) : Prop := match p with PInc b | PPush b => bvars b = V | _ => True end.
  Definition w_vars (w : worker) : Prop := bvars (cs_box (w_cs w)) = V /\ pc_vars (w_pc w).
  Definition st_vars (st : pstate) : Prop := Forall (fun b => bvars b = V) (p_stack st) /\ Forall w_vars (p_ws st).
  Lemma upd_all {X} (Q : X -> Prop) x l : Q x -> Forall Q l -> forall i, Forall Q (upd_nth i x l).
  Proof. intros Hx Hl. induction Hl as [|y l Hy Hl IH]; intros [|i]; cbn [upd_nth]; repeat constructor; auto. Qed.
  Lemma par_step_ext st i : st_vars st -> par_step pr ev mid precision fs st i = par_step pr' ev' mid precision fs st i /\
    forall st', par_step pr ev mid precision fs st i = Some st' -> st_vars st'.
  Proof.
    intros [Hs Hw]. unfold par_step. destruct (nth_error (p_ws st) i) as [w|] eqn:En; [|split; [reflexivity|intros st' E; injection E as <-; split; auto]].
    assert (Ww : w_vars w) by (rewrite Forall_forall in Hw; apply Hw; exact (nth_error_In _ _ En)). destruct Ww as [W1 W2].
    assert (G : forall p, pc_vars p -> w_vars (goto w p)) by (intros p Hp'; split; [exact W1|exact Hp']).
    destruct (w_pc w) eqn:Ew; cbn [pc_vars] in W2.
    - split; [reflexivity|]. intros st' E. injection E as <-. split; [exact Hs|]. cbn [set_w p_ws]. apply upd_all; [apply G; destruct (p_found st); exact I|exact Hw].
    - split; [reflexivity|]. intros st' E. injection E as <-. split; [exact Hs|]. cbn [set_w p_ws]. apply upd_all; [apply G; destruct (0 <? p_count st)%Z; [destruct (w_pop w)|]; exact I|exact Hw].
    - split; [reflexivity|]. destruct (p_stack st) as [|b rest] eqn:Es; intros st' E; injection E as <-.
      + split; cbn [set_w p_ws p_stack]; [rewrite Es; exact Hs|]. apply upd_all; [apply G; exact I|exact Hw].
      + inversion Hs as [|? ? Hb Hr]; subst. split; cbn [p_stack p_ws]; [exact Hr|]. apply upd_all; [split; [exact Hb|exact I]|exact Hw].
    - destruct (step_ext (w_cs w) W1) as [E Ho]. rewrite <- E. split; [reflexivity|]. destruct (icp_step pr ev (branch_largest mid) precision fs (w_cs w)) as [o|]; cbn [bind]; [|discriminate].
      specialize (Ho o eq_refl). intros st' E'. injection E' as <-. split; [exact Hs|]. cbn [set_w p_ws]. apply upd_all; [|exact Hw].
      destruct o as [s1|s1|d l r s1]; cbn [o_vars] in Ho; [split; [exact Ho|exact I]|split; [exact Ho|exact I]|]. destruct Ho as (Hl & Hr & _).
      destruct (w_lf w); split; cbn [w_cs cs_with_box cs_box w_pc pc_vars]; auto.
    - split; [reflexivity|]. intros st' E. injection E as <-. split; [exact Hs|]. cbn [p_ws]. apply upd_all; [apply G; exact I|exact Hw].
    - split; [reflexivity|]. intros st' E. injection E as <-. split; [exact Hs|]. cbn [p_ws]. apply upd_all; [apply G; exact I|exact Hw].
    - split; [reflexivity|]. intros st' E. injection E as <-. split; [exact Hs|]. cbn [p_ws]. apply upd_all; [apply G; exact W2|exact Hw].
    - split; [reflexivity|]. intros st' E. injection E as <-. split; cbn [p_stack p_ws]; [constructor; auto|]. apply upd_all; [split; [exact W1|exact I]|exact Hw].
    - split; [reflexivity|]. intros st' E. injection E as <-. split; auto.
  Qed.
  Lemma par_run_ext sched : forall st, st_vars st -> par_run pr ev mid precision fs sched st = par_run pr' ev' mid precision fs sched st.
  Proof.
    induction sched as [|i sched IH]; intros st Hst; cbn [par_run]; [reflexivity|]. destruct (par_step_ext st i Hst) as [E Ho]. rewrite <- E.
    destruct (par_step pr ev mid precision fs st i) as [st'|]; cbn [bind]; [|reflexivity]. apply IH. apply Ho. reflexivity.
  Qed.
  Lemma par_ext lf jobs sched s : bvars (cs_box s) = V -> icp_par pr ev mid precision fs lf jobs sched s = icp_par pr' ev' mid precision fs lf jobs sched s.
  Proof.
    intros H. unfold icp_par. rewrite <- (Hp s H). destruct (pr s) as [s1|] eqn:E1; cbn [bind]; [|reflexivity]. assert (V1 := Hk s s1 H E1).
    destruct (b_empty (cs_box s1)); [reflexivity|]. rewrite <- par_run_ext; [reflexivity|]. split; cbn [par_init p_stack p_ws]; [constructor; auto|].
    apply Forall_forall. intros w Hw. apply repeat_spec in Hw. rewrite Hw. split; [exact V1|exact I].
  Qed.
End Ext.

Definition local_search (srch : nat -> (cstat -> option cstat) -> (formula -> box -> option (etype * ival)) -> dbl -> list formula -> cstat -> option (bool * cstat)) : Prop :=
  forall t V pr pr' ev ev' p fs s, (forall s, bvars (cs_box s) = V -> pr s = pr' s) -> (forall s s', bvars (cs_box s) = V -> pr s = Some s' -> bvars (cs_box s') = V) ->
    (forall f b, In f fs -> ev f b = ev' f b) -> bvars (cs_box s) = V -> srch t pr ev p fs s = srch t pr' ev' p fs s.
Lemma by_seq_local mid k lf : local_search (by_seq mid k lf).
Proof. intros t V pr pr' ev ev' p fs s H1 H2 H3 H4. exact (seq_ext V pr pr' ev ev' mid p fs H1 H2 H3 (k t) (lf t) s H4). Qed.
Lemma by_par_local mid lf jobs sched : local_search (by_par mid lf jobs sched).
Proof. intros t V pr pr' ev ev' p fs s H1 H2 H3 H4. exact (par_ext V pr pr' ev ev' mid p fs H1 H2 H3 (lf t) jobs (sched t) s H4). Qed.

Section Link.
  Variables (esub : expr -> expr -> expr) (eneg : expr -> expr) (n : nat) (L : ibex).
  Variable fa : dbl -> list var -> formula -> box -> option (list ival).
  Variable fe : dbl -> formula -> box -> option (etype * ival).
  Variable rel : formula -> box -> option (etype * ival).
  Variables (term : list ival -> list ival -> bool) (m : nat).
  Variable srch : nat -> (cstat -> option cstat) -> (formula -> box -> option (etype * ival)) -> dbl -> list formula -> cstat -> option (bool * cstat).
  Hypothesis Hloc : local_search srch.

  Notation orc_at := (orc_at esub eneg n L fa).
  Notation ev_at := (ev_at fe rel).
  Notation fresh_T := (fresh_T esub eneg n L fa fe rel term m srch).

  Section Vars.
    Variables (V : list var) (p : dbl).
    Notation same g h := (forall s, bvars (cs_box s) = V -> g s = h s).
    Notation keep g := (forall s s' : cstat, bvars (cs_box s) = V -> g s = Some s' -> bvars (cs_box s') = V).

    Lemma fwd_vars Orc f s : bvars (cs_box (prune_fwd Orc f s)) = bvars (cs_box s).
    Proof.
      unfold prune_fwd. destruct (o_bwd Orc f (cs_box s)) as [inner iv]. destruct inner; [reflexivity|]. destruct (b_empty _); [now rewrite au_box|]. destruct (changed_bits _ _ _ _); [reflexivity|now rewrite au_box].
    Qed.
    Lemma faa_vars Orc f s s' : prune_forall Orc f s = Some s' -> bvars (cs_box s') = bvars (cs_box s).
    Proof.
      unfold prune_forall. destruct (o_fa Orc f (cs_box s)) as [iv|]; cbn [bind]; [|discriminate]. intros E.
      match type of E with Some ?x = _ => assert (X : s' = x) by congruence end. rewrite X. destruct (b_empty _); now rewrite au_box.
    Qed.
    Lemma int_vars idx : forall s, bvars (cs_box (prune_int idx s)) = bvars (cs_box s).
    Proof.
      induction idx as [|i idx IH]; intros s; cbn [prune_int]; [reflexivity|]. destruct (b_get (cs_box s) i) as [|l u]; [apply IH|].
      destruct (negb (is_integer l) || negb (is_integer u)); [|apply IH]. destruct (dle (dceil l) (dfloor u)); [rewrite IH; reflexivity|].
      destruct (nth_error (bvars (cs_box s)) i); reflexivity.
    Qed.
    Lemma seq_fns_ext l l' : Forall2 (fun g h => same g h /\ keep g) l l' -> same (seq_fns l) (seq_fns l') /\ keep (seq_fns l).
    Proof.
      induction 1 as [|g h l l' [Hs Hk] _ [IH1 IH2]]; [split; [reflexivity|cbn [seq_fns]; intros s s' Hv E; congruence]|]. split.
      - intros s Hv. cbn [seq_fns]. rewrite <- (Hs s Hv). destruct (g s) as [s1|] eqn:E; cbn [bind]; [|reflexivity]. destruct (b_empty (cs_box s1)); [reflexivity|]. apply IH1. exact (Hk s s1 Hv E).
      - intros s s' Hv. cbn [seq_fns]. destruct (g s) as [s1|] eqn:E; cbn [bind]; [|discriminate]. destruct (b_empty (cs_box s1)); [|apply IH2; exact (Hk s s1 Hv E)].
        intros E'. assert (s1 = s') by congruence. subst s'. exact (Hk s s1 Hv E).
    Qed.
    Lemma fix_fns_ext l l' : Forall2 (fun g h => same g h /\ keep g) l l' -> forall k, same (fix_fns term k l) (fix_fns term k l') /\ keep (fix_fns term k l).
    Proof.
      intros H k. destruct (seq_fns_ext l l' H) as [S1 S2]. induction k as [|k [IH1 IH2]]; cbn [fix_fns]; [split; [reflexivity|discriminate]|]. split.
      - intros s Hv. rewrite <- (S1 s Hv). destruct (seq_fns l s) as [s1|] eqn:E; cbn [bind]; [|reflexivity]. destruct (b_empty (cs_box s1)); [reflexivity|]. destruct (term _ _); [reflexivity|]. apply IH1. exact (S2 s s1 Hv E).
      - intros s s' Hv. destruct (seq_fns l s) as [s1|] eqn:E; cbn [bind]; [|discriminate]. assert (V1 := S2 s s1 Hv E).
        destruct (b_empty (cs_box s1)); [intros E'; assert (s1 = s') by congruence; subst; exact V1|]. destruct (term _ _); [intros E'; assert (s1 = s') by congruence; subst; exact V1|]. apply IH2. exact V1.
    Qed.
    Lemma seq_run_fns (g : contractor -> cstat -> option cstat) cs : forall s, seq_run g cs s = seq_fns (map g cs) s.
    Proof. induction cs as [|c cs IH]; intros s; cbn [seq_run seq_fns map]; [reflexivity|]. destruct (g c s); cbn [bind]; [|reflexivity]. rewrite IH. reflexivity. Qed.
    Lemma fix_loop_fns (g : contractor -> cstat -> option cstat) cs k : forall s, fix_loop term g k cs s = fix_fns term k (map g cs) s.
    Proof. induction k as [|k IH]; intros s; cbn [fix_loop fix_fns]; [reflexivity|]. rewrite seq_run_fns. destruct (seq_fns _ s); cbn [bind]; [|reflexivity]. rewrite IH. reflexivity. Qed.

    (** A cached contractor built for these variables and this precision prunes as the contractor does. *)
    Lemma eprune_ok k f e : lit_entry esub eneg n p V f = Some e -> same (eprune esub eneg n L fa term k e) (prune (orc_at p) term k (e_ctc e)) /\ keep (eprune esub eneg n L fa term k e).
    Proof.
      unfold lit_entry, lit_ctc. destruct (is_forall f) eqn:Ef.
      - cbn [bind]. intros E. assert (X : e = mkEntry V (Some p) (mk_fix [CForall f])) by congruence. rewrite X. clear X E.
        unfold eprune. cbn [e_prec e_ctc]. change (mk_fix [CForall f]) with (CFix [CForall f]).
        assert (G : same (fun s => prune (e_orc esub eneg n L fa (bvars (cs_box s)) (mkEntry V (Some p) (CFix [CForall f]))) term k (CFix [CForall f]) s)
                         (prune (e_orc esub eneg n L fa V (mkEntry V (Some p) (CFix [CForall f]))) term k (CFix [CForall f]))) by (intros s Hv; rewrite Hv; reflexivity).
        set (A := e_orc esub eneg n L fa V (mkEntry V (Some p) (CFix [CForall f]))) in *.
        assert (H : forall k, same (prune A term k (CForall f)) (prune (orc_at p) term k (CForall f)) /\ keep (prune A term k (CForall f))).
        { intros [|j]; [split; [reflexivity|discriminate]|]. cbn [prune]. split.
          - intros s Hv. unfold prune_forall. cbn [A e_orc SpecCache.orc_at ibex_oracles o_fa e_prec e_vars]. rewrite Hv. rewrite <- Hv at 2. destruct (cs_box s); reflexivity.
          - intros s s' Hv E. rewrite (faa_vars _ _ _ _ E). exact Hv. }
        destruct k as [|k]; [split; [reflexivity|discriminate]|].
        assert (Q : Forall2 (fun g h => same g h /\ keep g) (map (prune A term k) [CForall f]) (map (prune (orc_at p) term k) [CForall f])) by (constructor; [apply H|constructor]).
        destruct (fix_fns_ext _ _ Q k) as [Q1 Q2]. split.
        + intros s Hv. rewrite G by exact Hv. cbn [prune]. rewrite !fix_loop_fns. apply Q1. exact Hv.
        + intros s s' Hv E. rewrite G in E by exact Hv. cbn [prune] in E. rewrite fix_loop_fns in E. exact (Q2 s s' Hv E).
      - destruct (mk_fwd esub eneg V n f) as [c|] eqn:Ec; cbn [bind]; [|discriminate]. intros E. assert (X : e = mkEntry V None c) by congruence. rewrite X. clear X E.
        unfold eprune. cbn [e_prec e_ctc e_vars].
        assert (G : forall s, bvars (cs_box s) = V -> cs_with_box s (mkBox V (bvals (cs_box s))) = s) by (intros [[vs is] bp o u w] Hv; cbn in Hv; subst; reflexivity).
        assert (H : same (prune (e_orc esub eneg n L fa V (mkEntry V None c)) term k c) (prune (orc_at p) term k c) /\ keep (prune (orc_at p) term k c)).
        { unfold mk_fwd in Ec. destruct (ibex_convert esub eneg V n f) as [[q|]| | |] eqn:Eq; try discriminate; injection Ec as <-; (destruct k as [|k]; [split; [reflexivity|discriminate]|]).
          - split; [reflexivity|]. intros s s' Hv E. cbn [prune] in E. assert (X : s' = prune_fwd (orc_at p) f s) by congruence. rewrite X, fwd_vars. exact Hv.
          - split; [reflexivity|]. intros s s' Hv E. cbn [prune] in E. congruence. }
        destruct H as [H1 H2]. split.
        + intros s Hv. rewrite Hv, Nat.eqb_refl, (G s Hv), (H1 s Hv). destruct (prune (orc_at p) term k c s) as [s'|] eqn:E; cbn [bind]; [|reflexivity].
          assert (V1 := H2 s s' Hv E). rewrite (G s' V1). reflexivity.
        + intros s s' Hv E. rewrite Hv, Nat.eqb_refl, (G s Hv), (H1 s Hv) in E. destruct (prune (orc_at p) term k c s) as [s1|] eqn:E1; cbn [bind] in E; [|discriminate].
          assert (X : s' = cs_with_box s1 (mkBox V (bvals (cs_box s1)))) by congruence. rewrite X. reflexivity.
    Qed.
    Lemma entry_noseq f e : lit_entry esub eneg n p V f = Some e -> forall l, e_ctc e <> CSeq l.
    Proof.
      unfold lit_entry, lit_ctc. destruct (is_forall f).
      - cbn [bind]. intros E l. assert (X : e_ctc e = mk_fix [CForall f]) by (injection E as <-; reflexivity). rewrite X. discriminate.
      - unfold mk_fwd. destruct (ibex_convert esub eneg V n f) as [[q|]| | |]; cbn [bind]; try discriminate; intros E l; injection E as <-; discriminate.
    Qed.
    Lemma int_same k b : same (prune (orc0 esub eneg n L) term k (mk_integer b)) (prune (orc_at p) term k (mk_integer b)) /\ keep (prune (orc0 esub eneg n L) term k (mk_integer b)).
    Proof.
      destruct k as [|k]; [split; [reflexivity|discriminate]|]. unfold mk_integer. destruct (existsb _ _); (split; [reflexivity|]); intros s s' Hv E; cbn [prune] in E.
      - assert (X : s' = prune_int (int_indexes (bvars b)) s) by congruence. rewrite X, int_vars. exact Hv.
      - congruence.
    Qed.
    Lemma built_ok es b : Forall (fun e => exists f, lit_entry esub eneg n p V f = Some e) es ->
      same (prune_built esub eneg n L fa term m es (mk_integer b)) (prune (orc_at p) term m (mk_fix (map e_ctc es ++ [mk_integer b]))) /\ keep (prune_built esub eneg n L fa term m es (mk_integer b)).
    Proof.
      intros He. destruct m as [|k]; [split; [reflexivity|discriminate]|]. unfold prune_built.
      set (l' := c_flatten (map e_ctc es ++ [mk_integer b])).
      assert (Q : Forall2 (fun g h => same g h /\ keep g) (fns esub eneg n L fa term k es (mk_integer b)) (map (prune (orc_at p) term k) l')).
      { unfold l', fns, c_flatten. rewrite flat_map_app, map_app. apply Forall2_app.
        - induction He as [|e es (f & E) _ IH]; cbn [map filter flat_map]; [constructor|]. assert (Ns := entry_noseq f e E). destruct (eprune_ok k f e E) as [P1 P2].
          destruct (e_ctc e) eqn:Ec; cbn [real_ctc]; try (cbn [map app]; constructor; [split; [exact P1|exact P2]|exact IH]); [exact IH|exfalso; exact (Ns _ eq_refl)].
        - cbn [flat_map]. destruct (int_same k b) as [P1 P2]. unfold mk_integer in *. destruct (existsb _ _); cbn [real_ctc app map]; [constructor; [split; assumption|constructor]|constructor]. }
      unfold mk_fix. fold l'. clearbody l'. generalize dependent (fns esub eneg n L fa term k es (mk_integer b)). intros F Q. destruct l' as [|c l1], F as [|g lg]; try (inversion Q; fail).
      - cbn [prune]. split; [reflexivity|]. intros s s' Hv E. congruence.
      - destruct (fix_fns_ext _ _ Q k) as [Q1 Q2]. split; [|exact Q2]. intros s Hv. cbn [prune]. rewrite fix_loop_fns. exact (Q1 s Hv).
    Qed.
  End Vars.

  Lemma build_link p V : forall fs s acc cs cc, bvars (cs_box s) = V -> c_right esub eneg n p V fs cc ->
    Forall (fun e => exists f, lit_entry esub eneg n p V f = Some e) acc -> cs = map e_ctc acc ->
    match build_cached esub eneg n p fs s acc cc, build_loop esub eneg n fs s cs with
    | Some (_, (s1, Some es)), Some (s2, Some l) => s1 = s2 /\ bvars (cs_box s1) = V /\ l = map e_ctc es /\ Forall (fun e => exists f, lit_entry esub eneg n p V f = Some e) es
    | Some (_, (s1, None)), Some (s2, None) => s1 = s2
    | None, None => True
    | _, _ => False
    end.
  Proof.
    induction fs as [|f fs IH]; intros s acc cs cc Hv R Ha ->; cbn [build_cached build_loop]; [auto|].
    destruct (filter_assertion f (cs_box s)) as [[r b']|] eqn:Ef; cbn [bind]; [|exact I].
    assert (V' : bvars b' = V) by (rewrite <- Hv; exact (filter_vars _ _ _ _ Ef)).
    assert (R' : c_right esub eneg n p V fs cc) by (intros g e Hg; apply R; right; exact Hg).
    destruct r.
    - rewrite V'. generalize (get_right esub eneg n p V (f :: fs) f cc (or_introl eq_refl) R). destruct (lit_entry esub eneg n p V f) as [e|] eqn:Ee.
      + intros (cc1 & -> & R1 & _). cbn [bind fst snd]. assert (Ec : lit_ctc esub eneg n V f = Some (e_ctc e)).
        { unfold lit_entry in Ee. destruct (lit_ctc esub eneg n V f) as [c|]; cbn [bind] in Ee; [|discriminate]. injection Ee as <-. reflexivity. }
        rewrite Ec. cbn [bind]. apply IH.
        * destruct (b_eqb _ _); [exact V'|]. rewrite au_box. exact V'.
        * intros g e' Hg. apply R1. right. exact Hg.
        * apply Forall_app. split; [exact Ha|]. constructor; [exists f; exact Ee|constructor].
        * rewrite map_app. reflexivity.
      + intros ->. cbn [bind]. unfold lit_entry in Ee. destruct (lit_ctc esub eneg n V f) as [c|]; cbn [bind] in *; [discriminate|exact I].
    - destruct (b_empty b'); [reflexivity|]. apply IH; auto. rewrite au_box. exact V'.
    - apply IH; auto.
  Qed.
  Lemma ev_link p fs : forall all, incl all fs -> forall f, In f all -> forall b, run_ev fe rel (snd (evaluators p all [])) f b = ev_at p f b.
  Proof.
    intros all _ f Hf b. assert (G : forall all ec, (forall g x, In (g, x) ec -> x = if is_forall g then Some p else None) -> In f all ->
      lookup f (snd (evaluators p all ec)) = Some (if is_forall f then Some p else None)).
    { clear. induction all as [|g all IH]; intros ec R []; cbn [evaluators].
      - subst g. assert (X : exists ec', match lookup f ec with Some x => (ec, x) | None => ((f, if is_forall f then Some p else None) :: ec, if is_forall f then Some p else None) end = (ec', if is_forall f then Some p else None)).
        { destruct (lookup f ec) as [x|] eqn:El; [|eexists; reflexivity]. apply lookup_in in El. exists ec. rewrite (R f x El). reflexivity. }
        destruct X as [ec' ->]. destruct (evaluators p all ec') as [e3 r3]. cbn [snd lookup]. rewrite formula_eqb_refl. reflexivity.
      - assert (X : exists ec' x, match lookup g ec with Some x => (ec, x) | None => ((g, if is_forall g then Some p else None) :: ec, if is_forall g then Some p else None) end = (ec', x) /\
                  x = (if is_forall g then Some p else None) /\ (forall h x, In (h, x) ec' -> x = if is_forall h then Some p else None)).
        { destruct (lookup g ec) as [x|] eqn:El.
          - apply lookup_in in El. exists ec, x. split; [reflexivity|]. split; [exact (R g x El)|exact R].
          - eexists _, _. split; [reflexivity|]. split; [reflexivity|]. intros h x [E|Hi]; [|exact (R h x Hi)]. assert (Q : g = h) by exact (f_equal fst E). rewrite <- Q. exact (eq_sym (f_equal snd E)). }
        destruct X as (ec' & x & -> & Ex & R'). specialize (IH ec' R' H). destruct (evaluators p all ec') as [e3 r3]. cbn [snd lookup] in *. destruct (formula_eqb f g) eqn:Eq; [|exact IH].
        apply formula_eqb_eq in Eq. rewrite Ex, Eq. reflexivity. }
    unfold run_ev. rewrite (G all [] (fun g x (H : In (g, x) []) => match H with end) Hf). unfold SpecCache.ev_at. destruct (is_forall f); reflexivity.
  Qed.

  Theorem fresh_link t q : fresh (tc_check esub eneg n L fa fe rel term m srch) t q = fresh_T (q_prec q) t (q_box q) (q_lits q).
  Proof.
    unfold fresh, SpecCache.fresh_T, tc_check, theory_check, build_contractor. set (p := q_prec q). set (V := bvars (q_box q)).
    assert (EV : forall s pr pr', bvars (cs_box s) = V -> (forall s, bvars (cs_box s) = V -> pr s = pr' s) -> (forall s s', bvars (cs_box s) = V -> pr s = Some s' -> bvars (cs_box s') = V) ->
      forall cc, match (let (ec, evs) := evaluators p (q_lits q) (t_evs cache0) in
             bind (srch t pr (run_ev fe rel evs) p (q_lits q) s) (fun r => let s' := snd r in
               Some (mkTcache cc ec, if b_empty (cs_box s') then TUnsat (explanation (cs_wit s') (cs_used s')) else TSat (cs_box s')))) with Some (_, r0) => Some r0 | None => None end =
        bind (srch t pr' (ev_at p) p (q_lits q) s) (fun r => let s' := snd r in
            Some (if b_empty (cs_box s') then TUnsat (explanation (cs_wit s') (cs_used s')) else TSat (cs_box s')))).
    { intros s pr pr' Hv H1 H2 cc. generalize (ev_link p (q_lits q) (q_lits q) (incl_refl _)). cbn [cache0 t_evs]. destruct (evaluators p (q_lits q) []) as [ec evs]. cbn [snd]. intros H3.
      rewrite (Hloc t V pr pr' (run_ev fe rel evs) (ev_at p) p (q_lits q) s H1 H2 (fun f b Hf => H3 f Hf b) Hv). destruct (srch t pr' (ev_at p) p (q_lits q) s); reflexivity. }
    destruct (q_lits q) as [|f0 fs0] eqn:El.
    - cbn [bind cs_box cs_new]. destruct (int_same V p m (q_box q)) as [P1 P2]. apply EV; auto.
    - rewrite <- El in *. generalize (build_link p V (q_lits q) (cs_new (q_box q) None) [] [] [] eq_refl (fun f e _ (H : In (f, e) []) => match H with end) (Forall_nil _) eq_refl).
      cbn [cache0 t_ctcs]. destruct (build_cached esub eneg n p (q_lits q) (cs_new (q_box q) None) [] []) as [[cc [s1 [es|]]]|], (build_loop esub eneg n (q_lits q) (cs_new (q_box q) None) []) as [[s2 [l|]]|]; cbn [bind fst snd]; try tauto.
      + intros (<- & Hv & -> & He). cbn [bind]. destruct (built_ok V p es (cs_box s1) He) as [P1 P2]. apply EV; auto.
      + intros <-. reflexivity.
  Qed.
End Link.
