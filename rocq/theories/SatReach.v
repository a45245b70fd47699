(** * States of the SAT wrapper along every history of its use (behind C10) *)
From Coq Require Import ZArith Reals List Bool Arith Lia.
From Verif Require Import Dbl Syntax Sem SemProofs FormulaCons FormulaConsProofs SpecForm Nnf NnfProofs PredAbs PredAbsProofs Tseitin TseitinProofs Scoped SpecScoped ScopedProofs
  Interval IEval Contr Icp Filter Theory IteElim SpecIte IteElimProofs Regular RegularProofs Wff WffProofs Sat Context CtxStruct SatSem CdclProofs CtxSem.
Import ListNotations.

(** A history: formulas added (relations not foldable to constants, as the constructors guarantee), scopes
    opened and closed, variables created elsewhere, calls of the loop (which learn clauses). *)
Inductive sat_reach (fold : expr -> expr -> option dbl) (pico : pico_t) (T : nat -> box -> list formula -> option tres) : satst -> nat -> Prop :=
| sr_init n : sat_reach fold pico T sat_init n
| sr_new s n m : sat_reach fold pico T s n -> n <= m -> sat_reach fold pico T s m
| sr_add s n f s' n' : sat_reach fold pico T s n -> unfolded fold f -> (forall v, In v (fvF f) -> vid v < n) ->
    sat_add_formula fold f n s = Some (s', n') -> sat_reach fold pico T s' n'
| sr_push s n : sat_reach fold pico T s n -> sat_reach fold pico T (sat_push s) n
| sr_pop s n s' : sat_reach fold pico T s n -> sat_pop s = Some s' -> sat_reach fold pico T s' n
| sr_solve s n k b t o s' n' t' : sat_reach fold pico T s n -> core_loop fold pico T k b s n t = Some (o, s', n', t') -> sat_reach fold pico T s' n'.

Section Unf.
  Variable fold : expr -> expr -> option dbl.
  Let C : closedP (unfolded fold) := closed_unf fold.
  Lemma or_step_unf c1 c2 : unfolded fold c1 -> unfolded fold c2 -> unfolded fold (or_step c1 c2).
  Proof.
    intros H1 H2. unfold or_step. apply (c_conj _ C). intros g Hg. apply (proj1 (fset_In _ _)) in Hg.
    assert (O : forall a b, unfolded fold a -> unfolded fold b -> unfolded fold (mk_or a b)) by (intros; apply (c_or _ C); auto).
    assert (D : In g [mk_or c1 c2] -> unfolded fold g) by (intros [<-|[]]; auto).
    assert (D1 : forall cs, (forall c, In c cs -> unfolded fold c) -> In g (map (fun c => mk_or c c2) cs) -> unfolded fold g).
    { intros cs Hc Hi. apply in_map_iff in Hi. destruct Hi as (x & <- & Hx). auto. }
    assert (D2 : forall cs, (forall c, In c cs -> unfolded fold c) -> In g (map (fun c => mk_or c1 c) cs) -> unfolded fold g).
    { intros cs Hc Hi. apply in_map_iff in Hi. destruct Hi as (x & <- & Hx). auto. }
    destruct c1 as [| | | |f1|f1|f1|v1 f1]; destruct c2 as [| | | |f2|f2|f2|v2 f2]; try (exact (D Hg));
      try (apply (D1 f1 (proj1 (cA _ C f1) H1) Hg)); try (apply (D2 f2 (proj1 (cA _ C f2) H2) Hg)).
    apply in_flat_map in Hg. destruct Hg as (x & Hx & Hg). apply in_map_iff in Hg. destruct Hg as (y & <- & Hy).
    apply O; [exact (proj1 (cA _ C f1) H1 x Hx)|exact (proj1 (cA _ C f2) H2 y Hy)].
  Qed.
  Lemma fold_or_unf l : (forall g, In g l -> unfolded fold g) -> forall z, unfolded fold z -> unfolded fold (fold_left or_step l z).
  Proof.
    induction l as [|x l IHl]; intros Hl z Z; cbn [fold_left]; [exact Z|].
    apply IHl; [intros g Hg; apply Hl; right; exact Hg|]. apply or_step_unf; [exact Z|apply Hl; left; reflexivity].
  Qed.
  Lemma fset_map_unf (h : formula -> formula) fs : Forall (fun f => unfolded fold f -> unfolded fold (h f)) fs -> (forall g, In g fs -> unfolded fold g) ->
    forall g, In g (fset (map h fs)) -> unfolded fold g.
  Proof.
    intros H U g Hg. apply (proj1 (fset_In _ _)) in Hg. apply in_map_iff in Hg. destruct Hg as (x & <- & Hx). rewrite Forall_forall in H. apply H; auto.
  Qed.
  Lemma ncnf_unf n : forall f, unfolded fold f -> unfolded fold (ncnf fold n f).
  Proof.
    induction n as [|n IHn]; intros f; induction f as [| | v | op a b | fs IH | fs IH | g IH | vs g IH] using formula_ind'; intros U;
      cbn [ncnf]; try exact U; try (inversion U; subst; destruct op; rewrite ?mk_rel_none by assumption; try exact U;
        first [apply (c_and _ C)|apply (c_or _ C)]; constructor; assumption).
    - apply (c_conj _ C). exact (fset_map_unf _ fs IH (proj1 (cA _ C fs) U)).
    - apply fold_or_unf; [|constructor]. exact (fset_map_unf _ fs IH (proj1 (cO _ C fs) U)).
    - apply (c_conj _ C). exact (fset_map_unf _ fs IH (proj1 (cA _ C fs) U)).
    - apply fold_or_unf; [|constructor]. exact (fset_map_unf _ fs IH (proj1 (cO _ C fs) U)).
    - assert (X : unfolded fold (ncnf fold n (nnf fold true g true))) by (apply IHn, nnf_unfolded; inversion U; assumption).
      unfold mk_forall. constructor. exact X.
  Qed.
  Lemma forall_clauses_unf vs g c : unfolded fold g -> In c (forall_clauses fold vs g) -> unfolded fold c.
  Proof.
    intros U H. unfold forall_clauses in H. apply (proj1 (fset_In _ _)) in H. apply in_map_iff in H. destruct H as (x & <- & Hx).
    assert (X : unfolded fold x).
    { assert (N : unfolded fold (naive_cnf fold g)) by (apply ncnf_unf, nnf_unfolded, U).
      destruct (naive_cnf fold g); cbn [get_clauses] in Hx; try (destruct Hx as [<-|[]]; exact N). exact (proj1 (cA _ C fs) N x Hx). }
    destruct (existsb _ _); [unfold mk_forall; constructor|]; exact X.
  Qed.
  Definition tsU (s : ts_state) : Prop := forall b d, In (b, d) (ts_map s) -> unfolded fold d.
  Lemma ts_smap_U fs : Forall (fun f => forall s g s', ts_visit fold f s = (g, s') -> unfolded fold f -> tsU s -> unfolded fold g /\ tsU s') fs ->
    forall s r s', smap (ts_visit fold) fs s = (r, s') -> (forall f, In f fs -> unfolded fold f) -> tsU s -> (forall g, In g r -> unfolded fold g) /\ tsU s'.
  Proof.
    induction 1 as [|f fs Hf Hfs IH]; intros s r s' E Pf T; cbn [smap] in E; [injection E as <- <-; split; [intros ? []|exact T]|].
    destruct (ts_visit fold f s) as [g s1] eqn:E1. destruct (smap (ts_visit fold) fs s1) as [r' s2] eqn:E2. injection E as <- <-.
    destruct (Hf _ _ _ E1 (Pf f (or_introl eq_refl)) T) as [P1 T1].
    destruct (IH _ _ _ E2 (fun f H => Pf f (or_intror H)) T1) as [P2 T2]. split; [|exact T2]. intros h [<-|Hh]; auto.
  Qed.
  Lemma unf_var v : unfolded fold (FVar v). Proof. constructor. Qed.
  Lemma ts_visit_U f : forall s g s', ts_visit fold f s = (g, s') -> unfolded fold f -> tsU s -> unfolded fold g /\ tsU s'.
  Proof.
    induction f as [| |v|o a b|fs IH|fs IH|f IH|vs f IH] using formula_ind'; intros s g s' E Pf T; cbn [ts_visit] in E;
      try (injection E as <- <-; split; assumption).
    - destruct (smap (ts_visit fold) fs s) as [r s1] eqn:E1. injection E as <- <-.
      destruct (ts_smap_U fs IH _ _ _ E1 (proj1 (cA _ C fs) Pf) T) as [P1 T1]. split; [apply unf_var|].
      intros b d [H|H]; [injection H as <- <-|apply (T1 b); exact H]. apply (c_conj _ C). intros x Hx. apply P1. apply (proj1 (fset_In _ _)) in Hx. exact Hx.
    - destruct (smap (ts_visit fold) fs s) as [r s1] eqn:E1. injection E as <- <-.
      destruct (ts_smap_U fs IH _ _ _ E1 (proj1 (cO _ C fs) Pf) T) as [P1 T1]. split; [apply unf_var|].
      intros b d [H|H]; [injection H as <- <-|apply (T1 b); exact H]. apply (c_disj _ C). intros x Hx. apply P1. apply (proj1 (fset_In _ _)) in Hx. exact Hx.
    - destruct (is_atomic f); [injection E as <- <-; split; assumption|].
      unfold ts_fresh in E. destruct (ts_visit fold f _) as [f' s2] eqn:E1. injection E as <- <-.
      destruct (IH _ _ _ E1 (proj1 (cN _ C f) Pf) T) as [P1 T1]. split; [apply unf_var|].
      intros b d [H|H]; [injection H as <- <-|apply (T1 b); exact H]. apply (c_not _ C). exact P1.
    - assert (U : unfolded fold f) by (inversion Pf; assumption).
      pose proof (fun c => forall_clauses_unf vs f c U) as F.
      assert (Mt : (FVar {| vid := ts_next s; vty := BOOLEAN |}, ts_emplace {| vid := ts_next s; vty := BOOLEAN |} (mk_conj (forall_clauses fold vs f)) {| ts_next := S (ts_next s); ts_map := ts_map s |}) = (g, s') ->
        unfolded fold g /\ tsU s').
      { intros X. injection X as <- <-. split; [apply unf_var|]. intros b d [H|H]; [injection H as <- <-|apply (T b); exact H]. apply (c_conj _ C). exact F. }
      destruct (forall_clauses fold vs f) as [|c [|c2 cs]] eqn:Ec; [exact (Mt E)| |exact (Mt E)].
      injection E as <- <-. split; [apply F; left; reflexivity|exact T].
  Qed.
  Lemma ts_convert_U f n cs s : ts_convert fold f n = (Some cs, s) -> unfolded fold f -> forall c, In c cs -> unfolded fold c.
  Proof.
    intros E Pf. unfold ts_convert in E. destruct (ts_visit fold f {| ts_next := n; ts_map := [] |}) as [h s1] eqn:E1.
    destruct (ts_visit_U f _ _ _ E1 Pf) as [P1 T1]; [intros ? ? []|].
    destruct (ts_map s1) as [|p m] eqn:Em.
    - injection E as <- <-. intros c [<-|[]]. exact P1.
    - destruct h; try discriminate. injection E as E <-. apply (cnfize_map_P (unfolded fold) C v (p :: m)); auto. rewrite <- Em.
      intros b d H. split; [apply unf_var|exact (T1 b d H)].
  Qed.
End Unf.

Definition lev_ok (mx : nat) (x : slev) : Prop :=
  (forall v k, l_sat x v = Some k -> 1 <= k <= mx /\ l_sym x k = Some v) /\ (forall k v, l_sym x k = Some v -> l_sat x v = Some k) /\
  (forall L l, In L (l_cls x) -> In l L -> exists v, l_sym x (fst l) = Some v).
Lemma lev_inv s : lev_ok (ss_max s) (slv s) <-> sat_inv s.
Proof. split; [intros (A & B & C); split; assumption|intros [A B C]; split; [exact A|split; [exact B|exact C]]]. Qed.
Lemma lev_mono mx mx' x : mx <= mx' -> lev_ok mx x -> lev_ok mx' x.
Proof. intros H (A & B & C). split; [|split; assumption]. intros v k E. destruct (A v k E). split; [lia|assumption]. Qed.

Section Reach.
  Variables (M : interp) (fold : expr -> expr -> option dbl) (pico : pico_t) (T : nat -> box -> list formula -> option tres).
  Hypothesis T_sub : forall t b fs E, T t b fs = Some (TUnsat E) -> incl E fs.
  Lemma pa_ok_later nx m k : pa_ok fold {| pa_next := nx; pa_map := m |} -> nx <= k -> pa_ok fold {| pa_next := k; pa_map := m |}.
  Proof. intros [A1 A2 A3 A4 A5] H. split; cbn [pa_next pa_map] in *; auto. intros b h Hb. pose proof (A2 b h Hb). lia. Qed.
  Lemma add_formula_sok f n s s' n' : sok fold s n -> unfolded fold f -> (forall v, In v (fvF f) -> vid v < n) -> sat_add_formula fold f n s = Some (s', n') ->
    sok fold s' n' /\ ss_max s <= ss_max s'.
  Proof.
    intros [I K] U B E. unfold sat_add_formula in E. destruct (ts_convert fold f n) as [[cs|] t] eqn:Et; cbn [bind] in E; [|discriminate].
    destruct (ts_convert_fresh M fold f n (Some cs) t U B Et) as (_ & N2 & _).
    destruct (smap (pa_convert fold) cs _) as [gs q] eqn:Eq. destruct (sat_add_clauses gs _) as [s2|] eqn:E2; cbn [bind] in E; [|discriminate]. injection E as <- <-.
    cbn [with_tse ss_pa] in Eq.
    assert (K0 : pa_ok fold {| pa_next := ts_next t; pa_map := ss_pa s |}) by (apply (pa_ok_later n); [exact K|lia]).
    destruct (pa_convert_all_spec M fold cs _ gs q (ts_convert_U fold f n cs t Et U) K0 Eq) as (Kq & _).
    set (s0 := with_pa _ _) in *. assert (I0 : sat_inv s0) by (destruct I as [A1 A2 A3]; split; assumption).
    destruct (add_clauses_spec M gs s0 s2 I0 E2) as (I1 & X1 & P1 & _). split; [|exact (xe_max _ _ X1)]. split; [exact I1|].
    rewrite P1. cbn [s0 with_pa ss_pa]. destruct q; exact Kq.
  Qed.
  Lemma loop_sok k : forall b s n t o s' n' t', sok fold s n -> core_loop fold pico T k b s n t = Some (o, s', n', t') -> sok fold s' n' /\ ss_max s <= ss_max s'.
  Proof.
    induction k as [|k IH]; intros b s n t o s' n' t' HI E; [discriminate|].
    destruct (round_ex fold pico T T_sub b s n t HI) as (r & R & Er). rewrite Er in E.
    destruct R; cbn beta iota in E; try discriminate; try (injection E as <- <- <- <-; split; [exact HI|lia]).
    destruct (IH _ _ _ _ _ _ _ _ (learned_ok fold s n E0 L HI H3) E) as [A1 A2]. split; [exact A1|exact A2].
  Qed.
  Lemma loop_sim k : forall b s n t o s' n' t' saved, ssim s saved -> core_loop fold pico T k b s n t = Some (o, s', n', t') -> ssim s' saved.
  Proof.
    induction k as [|k IH]; intros b s n t o s' n' t' saved H E; [discriminate|]. cbn [core_loop] in E.
    destruct (pico _ _ _ _) as [a| |]; try discriminate; [|injection E as <- <- <- <-; exact H].
    destruct (sat_model s a) as [bm tm]. destruct tm as [|p tm]; [injection E as <- <- <- <-; exact H|].
    destruct (theory_lits s (p :: tm)) as [fs|]; cbn [bind] in E; [|discriminate]. destruct (T _ _ _) as [[m|E0]|]; cbn [bind] in E; try discriminate; [injection E as <- <- <- <-; exact H|].
    destruct (sat_learn fold E0 n s) as [[s1 n1]|] eqn:El; cbn [bind fst snd] in E; [|discriminate].
    eapply IH; [|exact E]. eapply learn_sim; eauto.
  Qed.
  Theorem reach_sok s n : sat_reach fold pico T s n -> sok fold s n.
  Proof.
    intros R. assert (X : sok fold s n /\ exists saved, ssim s saved /\ Forall (lev_ok (ss_max s)) saved); [|apply X].
    induction R as [n|s n m R [IH (sv & S1 & S2)] L|s n f s' n' R [IH (sv & S1 & S2)] U B E|s n R [IH (sv & S1 & S2)]|s n s' R [IH (sv & S1 & S2)] E|s n k b t o s' n' t' R [IH (sv & S1 & S2)] E].
    - split; [|exists []; split; [apply sat_init_sim|constructor]]. split; [split; intros; try discriminate; contradiction|apply pa_ok_init].
    - split; [|eauto]. destruct IH as [I K]. split; [exact I|]. apply (pa_ok_later n); assumption.
    - destruct (add_formula_sok f n s s' n' IH U B E) as [A1 A2]. split; [exact A1|]. exists sv. split; [eapply add_formula_sim; eauto|].
      eapply Forall_impl; [|exact S2]. intros x. apply lev_mono. exact A2.
    - destruct (sat_push_sim s sv S1) as [A1 A2]. destruct IH as [I K]. split.
      + split; [|exact K]. apply lev_inv. rewrite A2. apply (lev_mono (ss_max s)); [cbn [sat_push ss_max]; lia|]. apply lev_inv. exact I.
      + exists (slv s :: sv). split; [exact A1|]. constructor; [apply (lev_mono (ss_max s)); [cbn [sat_push ss_max]; lia|]; apply lev_inv; exact I|].
        eapply Forall_impl; [|exact S2]. intros x. apply lev_mono. cbn [sat_push ss_max]. lia.
    - destruct sv as [|x sv].
      + exfalso. destruct S1 as [A _ _ _]. unfold sat_pop in E. destruct (sm_pop var_eqb (ss_tse s)); try discriminate. destruct (sm_pop Nat.eqb _); try discriminate. destruct (sm_pop var_eqb (ss_to_sat s)); try discriminate.
        pose proof (vstep_sim _ _ VPop A) as V. cbn [sv_step vspec_step snap_pop snd map] in V. destruct (sv_pop (ss_clauses s)) as [[k c]| |]; try discriminate. destruct V as [_ V]. discriminate V.
      + destruct (sat_pop_sim s x sv S1) as (s1 & E1 & A1 & A2 & A3 & A4). rewrite E in E1. injection E1 as <-. inversion S2 as [|? ? B1 B2]; subst. destruct IH as [I K].
        split; [|exists sv; split; [exact A1|rewrite A4; exact B2]]. split; [apply lev_inv; rewrite A4; exact B1|]. rewrite A3. exact K.
    - destruct (loop_sok k b s n t o s' n' t' IH E) as [A1 A2]. split; [exact A1|]. exists sv. split; [eapply loop_sim; eauto|].
      eapply Forall_impl; [|exact S2]. intros y. apply lev_mono. exact A2.
  Qed.
End Reach.
