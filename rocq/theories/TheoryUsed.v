(** Only the constraints handed to the search are ever recorded as used. *)
From Coq Require Import ZArith Reals Lra Lia List Bool.
From Flocq Require Import Core.Core IEEE754.BinarySingleNaN.
From Verif Require Import Dbl DblProofs Syntax Sem SemProofs Interval IntervalProofs MathConv IEval Contr ContrProofs IbexConv Icp IcpProofs IcpPar IcpParProofs Filter Theory ExplainProofs.
Import ListNotations.

Fixpoint c_forms (c : contractor) : list formula :=
  match c with
  | CId | CInteger _ => []
  | CFwd f | CForall f => [f]
  | CPoly fs => fs
  | CSeq cs | CFix cs | CWork cs | CJoin cs => flat_map c_forms cs
  end.
Section Used.
  Variable L : list formula.
  Definition Q (s : cstat) : Prop := incl (cs_used s) L.
  Lemma Q_add s f : Q s -> In f L -> Q (add_used s f).
  Proof. intros H Hf g Hg. apply add_used_used in Hg. destruct Hg as [->|Hg]; auto. Qed.
  Lemma Q_add_list fs s : Q s -> incl fs L -> Q (add_used_list s fs).
  Proof. intros H Hf g Hg. apply add_used_list_used in Hg. destruct Hg as [Hg|Hg]; auto. Qed.
  Lemma Q_wit vs s : Q s -> Q (fold_left add_witness vs s).
  Proof. intros H. unfold Q. destruct (fold_witness_same vs s) as (_ & _ & -> & _). exact H. Qed.
  Lemma Q_join a b : Q a -> Q b -> Q (cs_join a b).
  Proof. intros A B x Hx. cbn [cs_join cs_used] in Hx. apply set_union_In in Hx; [|apply mem_form_In]. destruct Hx; auto. Qed.
  Lemma Q_int idx : forall s, Q s -> Q (prune_int idx s).
  Proof.
    induction idx as [|i idx IH]; intros s H; cbn [prune_int]; auto. destruct (b_get (cs_box s) i) as [|l u]; [apply IH; auto|].
    destruct (negb (is_integer l) || negb (is_integer u)); [|apply IH; auto]. destruct (dle (dceil l) (dfloor u)); [apply IH; auto|].
    destruct (nth_error _ _); exact H.
  Qed.
  Section Loops.
    Variables (term : list ival -> list ival -> bool) (pr : contractor -> cstat -> option cstat).
    Hypothesis Hpr : forall c s s', incl (c_forms c) L -> Q s -> pr c s = Some s' -> Q s'.
    Notation inL := (fun c => incl (c_forms c) L).
    Lemma Q_seq cs : forall s s', Forall inL cs -> Q s -> seq_run pr cs s = Some s' -> Q s'.
    Proof.
      induction cs as [|c cs IH]; intros s s' F H; cbn [seq_run]; [intros [= <-]; auto|].
      destruct (pr c s) as [s1|] eqn:E; cbn [bind]; [|discriminate]. pose proof (Hpr _ _ _ (Forall_inv F) H E) as H1.
      destruct (b_empty _); [intros [= <-]; auto|apply IH; auto; exact (Forall_inv_tail F)].
    Qed.
    Lemma Q_fix n cs : forall s s', Forall inL cs -> Q s -> fix_loop term pr n cs s = Some s' -> Q s'.
    Proof.
      induction n as [|n IH]; intros s s' F H; cbn [fix_loop]; [discriminate|].
      destruct (seq_run pr cs s) as [s1|] eqn:E; cbn [bind]; [|discriminate]. pose proof (Q_seq _ _ _ F H E) as H1.
      destruct (b_empty _); [intros [= <-]; auto|]. destruct (term _ _); [intros [= <-]; auto|]. apply IH; auto.
    Qed.
    Lemma Q_joinrun saved cs : forall acc s', Forall inL cs -> Q saved -> Q acc -> join_run pr saved cs acc = Some s' -> Q s'.
    Proof.
      induction cs as [|c cs IH]; intros acc s' F Hs H; cbn [join_run]; [intros [= <-]; auto|].
      destruct (pr c saved) as [s1|] eqn:E; cbn [bind]; [|discriminate]. pose proof (Hpr _ _ _ (Forall_inv F) Hs E) as H1.
      apply IH; auto; [exact (Forall_inv_tail F)|]. apply Q_join; auto.
    Qed.
    Lemma Q_wl1 all cs : forall s wl s' wl' e, Forall inL cs -> Q s -> wl_phase1 pr all cs s wl = Some (s', wl', e) -> Q s'.
    Proof.
      induction cs as [|c cs IH]; intros s wl s' wl' e F H; cbn [wl_phase1]; [intros [= <- _ _]; auto|].
      destruct (pr c (cs_with_out s bits0)) as [s1|] eqn:E; cbn [bind]; [|discriminate]. pose proof (Hpr c (cs_with_out s bits0) s1 (Forall_inv F) H E) as H1.
      destruct (b_empty _); [intros [= <- _ _]; auto|]. apply IH; auto. exact (Forall_inv_tail F).
    Qed.
    Lemma Q_wl2 n all : Forall inL all -> forall s wl k s', Q s -> wl_phase2 pr n all s wl k = Some s' -> Q s'.
    Proof.
      intros F. induction n as [|n IH]; intros s wl k s' H; cbn [wl_phase2]; [discriminate|].
      destruct (nth_error all k) as [c|] eqn:Ek; [|discriminate]. cbv zeta. destruct (pr c (cs_with_out s bits0)) as [s1|] eqn:E; cbn [bind]; [|discriminate].
      rewrite Forall_forall in F. pose proof (Hpr c (cs_with_out s bits0) s1 (F c (nth_error_In _ _ Ek)) H E) as H1.
      destruct (b_empty _); [intros [= <-]; auto|]. destruct (bits_find _ _ _); [|intros [= <-]; auto]. destruct (bits_find _ _ _); apply IH; auto.
    Qed.
    Lemma Q_wl n all s s' : Forall inL all -> Q s -> wl_run term pr n all s = Some s' -> Q s'.
    Proof.
      intros F H. unfold wl_run. set (todo := match cs_bp s with None => all | Some i => _ end).
      assert (Ft : Forall inL todo). { unfold todo. destruct (cs_bp s); auto. apply Forall_forall. intros x Hx. apply filter_In in Hx. rewrite Forall_forall in F. apply F. tauto. }
      destruct (wl_phase1 pr all todo s bits0) as [[[s1 wl] e]|] eqn:E; cbn [bind]; [|discriminate].
      pose proof (Q_wl1 _ _ _ _ _ _ _ Ft H E) as H1. destruct e; [intros [= <-]; auto|]. destruct (bits_find _ _ _); [|intros [= <-]; auto].
      destruct (term _ _); [intros [= <-]; auto|]. apply Q_wl2; auto.
    Qed.
  End Loops.
  Lemma forms_list cs : incl (flat_map c_forms cs) L -> Forall (fun c => incl (c_forms c) L) cs.
  Proof. intros H. apply Forall_forall. intros c Hc f Hf. apply H. apply in_flat_map. eauto. Qed.
  Variable Orc : oracles.
  Lemma Q_prune term n : forall c s s', incl (c_forms c) L -> Q s -> prune Orc term n c s = Some s' -> Q s'.
  Proof.
    induction n as [|n IH]; intros c s s' F H; cbn [prune]; [discriminate|].
    destruct c as [|idx|cs|f|fs|f|cs|cs|cs]; cbn [c_forms] in F.
    - intros [= <-]; auto.
    - intros [= <-]. apply Q_int; auto.
    - exact (Q_seq (prune Orc term n) IH cs s s' (forms_list _ F) H).
    - intros [= <-]. assert (Hf : In f L) by (apply F; left; auto). unfold prune_fwd. destruct (o_bwd Orc f (cs_box s)) as [inner iv].
      destruct inner; [exact H|]. destruct (b_empty _); [apply Q_add; auto; exact H|]. destruct (changed_bits _ _ _ _); [exact H|apply Q_add; auto; exact H].
    - intros [= <-]. unfold prune_poly. cbv zeta. destruct (b_empty _); [apply Q_add_list; auto; exact H|]. destruct (changed_bits _ _ _ _); [exact H|apply Q_add_list; auto; exact H].
    - assert (Hf : In f L) by (apply F; left; auto). unfold prune_forall. destruct (o_fa Orc f (cs_box s)) as [iv|]; cbn [bind]; [|discriminate]. intros [= <-].
      destruct (b_empty _); apply Q_add; auto; exact H.
    - exact (Q_fix term (prune Orc term n) IH n cs s s' (forms_list _ F) H).
    - exact (Q_wl term (prune Orc term n) IH n cs s s' (forms_list _ F) H).
    - intros E. refine (Q_joinrun (prune Orc term n) IH s cs _ s' (forms_list _ F) H _ E). exact H.
  Qed.

  (** The searches. *)
  Section Search.
    Variable pr : cstat -> option cstat.
    Variable ev : formula -> box -> option (etype * ival).
    Variable precision : dbl.
    Variable fs : list formula.
    Hypothesis HL : incl fs L.
    Hypothesis Hpr : forall s s', Q s -> pr s = Some s' -> Q s'.
    Lemma Q_step brancher s o : Q s -> icp_step pr ev brancher precision fs s = Some o -> Q (o_state o).
    Proof.
      intros H E. destruct (step_inv _ _ _ _ _ _ _ E) as (s1 & E1 & X). pose proof (Hpr _ _ H E1) as H1. destruct o as [s2|s2|d l r s2]; cbn [o_state].
      - destruct X as [[_ ->]|[_ X]]; auto. destruct (eval_loop_unsat _ _ _ _ _ _ X) as (f & i & Hf & _ & ->). apply Q_add; auto.
      - destruct X as [-> _]. auto.
      - destruct X as [-> _]. auto.
    Qed.
    Lemma Q_loop brancher n : forall stack lf s r s', Q s -> icp_loop pr ev brancher precision n fs stack lf s = Some (r, s') -> Q s'.
    Proof.
      induction n as [|n IH]; intros stack lf s r s' H E; cbn [icp_loop] in E; [discriminate|].
      destruct stack as [|[b bp] st]; [injection E as <- <-; auto|].
      set (s0 := mkCs b bp (cs_out s) (cs_used s) (cs_wit s)) in *.
      destruct (icp_step pr ev brancher precision fs s0) as [o|] eqn:Eo; cbn [bind] in E; [|discriminate]. pose proof (Q_step brancher s0 o H Eo) as H1.
      destruct o as [s1|s1|d l r' s1]; cbn [o_state] in H1; [eapply IH; [|exact E]; auto| |eapply IH; [|exact E]; auto]. injection E as <- <-. auto.
    Qed.
    Variable mid : dbl -> dbl -> dbl.
    Definition QW (w : worker) : Prop := Q (w_cs w).
    Lemma Q_pstep st i st' : Forall QW (p_ws st) -> par_step pr ev mid precision fs st i = Some st' -> Forall QW (p_ws st').
    Proof.
      intros F. unfold par_step. destruct (nth_error (p_ws st) i) as [w|] eqn:Ew; [|intros [= <-]; auto].
      assert (Hw : Q (w_cs w)). { rewrite Forall_forall in F. apply (F w), (nth_error_In _ _ Ew). }
      assert (Hu : forall w', Q (w_cs w') -> Forall QW (upd_nth i w' (p_ws st))) by (intros w' H; apply Forall_upd_nth; auto).
      destruct (w_pc w); try (intros [= <-]; cbn [set_w p_ws]; try apply Hu; auto; fail).
      - destruct (p_stack st); intros [= <-]; cbn [set_w p_ws]; apply Hu; auto.
      - destruct (icp_step pr ev (branch_largest mid) precision fs (w_cs w)) as [o|] eqn:Eo; cbn [bind]; [|discriminate]. intros [= <-].
        pose proof (Q_step _ _ _ Hw Eo) as H1. cbn [set_w p_ws]. apply Hu. destruct o as [s1|s1|d l r s1]; cbn [o_state] in H1; auto. destruct (w_lf w); auto.
    Qed.
    Lemma Q_prun sched : forall st st', Forall QW (p_ws st) -> par_run pr ev mid precision fs sched st = Some st' -> Forall QW (p_ws st').
    Proof.
      induction sched as [|i sched IH]; intros st st' F; cbn [par_run]; [intros [= <-]; auto|].
      destruct (par_step pr ev mid precision fs st i) as [st1|] eqn:E; cbn [bind]; [|discriminate]. apply IH. eapply Q_pstep; eauto.
    Qed.
    Lemma Q_par lf jobs sched s r s' : Q s -> icp_par pr ev mid precision fs lf jobs sched s = Some (r, s') -> Q s'.
    Proof.
      intros H. unfold icp_par. destruct (pr s) as [s1|] eqn:E1; cbn [bind]; [|discriminate]. pose proof (Hpr _ _ H E1) as H1.
      destruct (b_empty _); [intros [= <- <-]; auto|].
      destruct (par_run pr ev mid precision fs sched (par_init lf jobs s1)) as [st|] eqn:E2; cbn [bind]; [|discriminate].
      assert (F : Forall QW (p_ws st)). { eapply Q_prun; [|exact E2]. cbn [par_init p_ws]. apply Forall_forall. intros w Hw. apply repeat_spec in Hw. subst. exact H1. }
      destruct (all_done st); [|discriminate]. unfold par_result.
      assert (J : forall ws acc, Q acc -> Forall QW ws -> Q (fold_left (fun acc w => cs_join acc (w_cs w)) ws acc)).
      { induction ws as [|w ws IH]; intros acc Ha Fw; cbn [fold_left]; auto. apply IH; [|exact (Forall_inv_tail Fw)]. apply Q_join; auto. exact (Forall_inv Fw). }
      specialize (J _ _ H1 F). destruct (p_found st) as [k|]; [destruct (nth_error (p_ws st) k); [|discriminate]|]; intros [= <- <-]; exact J.
    Qed.
  End Search.
End Used.

Section Build.
  Variables (esub : expr -> expr -> expr) (eneg : expr -> expr) (n : nat).
  Lemma lit_forms vars f c : lit_ctc esub eneg n vars f = Some c -> incl (c_forms c) [f].
  Proof.
    unfold lit_ctc, mk_fwd. destruct (is_forall f); [intros [= <-]; apply incl_refl|]. destruct (ibex_convert esub eneg vars n f) as [[d|]| | |]; try discriminate; intros [= <-]; [apply incl_refl|intros x []].
  Qed.
  Lemma build_loop_used L fs : incl fs L -> forall s acc s' o, Q L s -> Forall (fun c => incl (c_forms c) L) acc ->
    build_loop esub eneg n fs s acc = Some (s', o) -> Q L s' /\ (forall l, o = Some l -> Forall (fun c => incl (c_forms c) L) l).
  Proof.
    induction fs as [|f fs IH]; intros HL s acc s' o H F; cbn [build_loop]; [intros [= <- <-]; split; auto; intros l [= <-]; auto|].
    assert (Hf : In f L) by (apply HL; left; auto). assert (HL' : incl fs L) by (intros x Hx; apply HL; right; auto).
    destruct (filter_assertion f (cs_box s)) as [[r b']|]; cbn [bind]; [|discriminate]. destruct r.
    - destruct (lit_ctc esub eneg n (bvars b') f) as [c|] eqn:Ec; cbn [bind]; [|discriminate]. apply IH; auto.
      + destruct (b_eqb _ _); [exact H|apply Q_add; auto].
      + apply Forall_app. split; auto. constructor; auto. intros x Hx. apply (lit_forms _ _ _ Ec) in Hx. destruct Hx as [<-|[]]. auto.
    - destruct (b_empty b'); [|apply IH; auto; apply Q_add; auto]. intros [= <- <-]. split; [apply Q_wit, Q_add; auto|discriminate].
    - apply IH; auto.
  Qed.
  Lemma forms_flatten cs : incl (flat_map c_forms (c_flatten cs)) (flat_map c_forms cs).
  Proof.
    intros f Hf. apply in_flat_map in Hf. destruct Hf as (c & Hc & Hf). unfold c_flatten in Hc. apply in_flat_map in Hc. destruct Hc as (d & Hd & Hc).
    apply in_flat_map. exists d. split; auto. destruct d; cbn in Hc; try (destruct Hc as [<-|[]]; exact Hf); try contradiction. cbn [c_forms]. apply in_flat_map. eauto.
  Qed.
  Lemma forms_int b : c_forms (mk_integer b) = []. Proof. unfold mk_integer. destruct (existsb _ _); reflexivity. Qed.
  Lemma forms_mk (wl : bool) l : incl (c_forms (if wl then mk_work l else mk_fix l)) (flat_map c_forms l).
  Proof. pose proof (forms_flatten l) as H. destruct wl; [unfold mk_work|unfold mk_fix]; destruct (c_flatten l); try (intros x []; fail); exact H. Qed.
  Lemma forms_poly vars fs p : mk_poly esub eneg vars n fs = Some p -> incl (c_forms p) fs.
  Proof. unfold mk_poly. destruct (poly_ctrs esub eneg vars n fs) as [[|d l]|]; try discriminate; intros [= <-]; [intros x []|apply incl_refl]. Qed.
  Lemma build_used wl poly fs s s' o : Q fs s -> build_contractor esub eneg n wl poly fs s = Some (s', o) ->
    Q fs s' /\ (forall c, o = Some c -> incl (c_forms c) fs).
  Proof.
    intros H. unfold build_contractor. destruct fs as [|f0 fs0] eqn:Ef; [intros [= <- <-]; split; auto; intros c [= <-]; rewrite forms_int; intros x []|]. rewrite <- Ef in *. clear Ef f0 fs0.
    destruct (build_loop esub eneg n fs s []) as [[s1 o1]|] eqn:E1; cbn [bind]; [|discriminate].
    destruct (build_loop_used fs fs (incl_refl _) _ _ _ _ H (Forall_nil _) E1) as [A B]. destruct o1 as [l|]; [|intros [= <- <-]; split; auto; discriminate].
    specialize (B l eq_refl). assert (Bl : incl (flat_map c_forms l) fs). { intros x Hx. apply in_flat_map in Hx. destruct Hx as (c & Hc & Hx). rewrite Forall_forall in B. exact (B c Hc x Hx). }
    assert (Bl1 : incl (flat_map c_forms (l ++ [mk_integer (cs_box s1)])) fs). { rewrite flat_map_app. cbn [flat_map]. rewrite forms_int. cbn [app]. rewrite app_nil_r. exact Bl. }
    destruct poly; cbn [bind].
    - destruct (mk_poly esub eneg (bvars (cs_box s1)) n fs) as [p|] eqn:Ep; cbn [bind]; [|discriminate]. intros [= <- <-]. split; auto. intros c [= <-].
      eapply incl_tran; [apply forms_mk|]. rewrite flat_map_app. apply incl_app; auto. cbn [flat_map]. rewrite app_nil_r. eapply forms_poly; eauto.
    - intros [= <- <-]. split; auto. intros c [= <-]. eapply incl_tran; [apply forms_mk|]. exact Bl1.
  Qed.
End Build.

(** Every explanation consists of the constraints that were checked. *)
Theorem theory_used esub eneg n wl poly search b fs E :
  (forall c s r s', incl (c_forms c) fs -> Q fs s -> search c s = Some (r, s') -> Q fs s') ->
  theory_check esub eneg n wl poly search b fs = Some (TUnsat E) -> incl E fs.
Proof.
  intros Hs. unfold theory_check. destruct (build_contractor esub eneg n wl poly fs (cs_new b None)) as [[s o]|] eqn:Eb; cbn [bind]; [|discriminate].
  destruct (build_used esub eneg n wl poly fs (cs_new b None) s o) as [A B]; auto; [intros x []|]. destruct o as [c|].
  - destruct (search c s) as [[r s']|] eqn:Es; cbn [bind snd]; [|discriminate]. pose proof (Hs _ _ _ _ (B c eq_refl) A Es) as C.
    destruct (b_empty (cs_box s')); intros [= <-]. eapply incl_tran; [apply ExplainProofs.explanation_spec|exact C].
  - intros [= <-]. eapply incl_tran; [apply ExplainProofs.explanation_spec|exact A].
Qed.
