(** * Caches are not observable while variables and precision stay (C48) *)
From Coq Require Import ZArith List Bool Arith Lia.
From Flocq Require Import IEEE754.BinarySingleNaN.
From Verif Require Import Dbl Syntax Sem SemProofs FormulaCons FormulaConsProofs Interval MathConv IEval Contr ContrProofs IbexConv Icp IcpPar Filter Theory Scoped IteElim Sat Context Cache SpecCache.
Import ListNotations.

Lemma lookup_in {A} f (l : list (formula * A)) a : lookup f l = Some a -> In (f, a) l.
Proof.
  induction l as [|[g x] l IH]; cbn [lookup]; [discriminate|]. destruct (formula_eqb f g) eqn:E; [|intros H; right; auto].
  apply formula_eqb_eq in E. intros H. left. congruence.
Qed.
Lemma upd_lb_vars v c b : bvars (snd (upd_lb v c b)) = bvars b.
Proof. unfold upd_lb. destruct (dle c _); [reflexivity|]. destruct (dle c _); reflexivity. Qed.
Lemma upd_ub_vars v c b : bvars (snd (upd_ub v c b)) = bvars b.
Proof. unfold upd_ub. destruct (dge c _); [reflexivity|]. destruct (dge c _); reflexivity. Qed.
Lemma upd_eq_vars v c b : bvars (snd (upd_eq v c b)) = bvars b.
Proof. unfold upd_eq. destruct (_ && _); [reflexivity|]. destruct (i_contains _ _); reflexivity. Qed.
Lemma upd_eq2_vars v l u b : bvars (snd (upd_eq2 v l u b)) = bvars b.
Proof. unfold upd_eq2. destruct (_ && _); [reflexivity|]. destruct (i_empty _); reflexivity. Qed.
Definition keeps (b : box) (o : option (fres * box)) : Prop := match o with Some x => bvars (snd x) = bvars b | None => True end.
Lemma slb_vars v c b : keeps b (upd_slb v c b).
Proof. unfold upd_slb. destruct (vty v); cbn [keeps snd]; auto using upd_lb_vars. Qed.
Lemma sub_vars v c b : keeps b (upd_sub v c b).
Proof. unfold upd_sub. destruct (vty v); cbn [keeps snd]; auto using upd_ub_vars. Qed.
Lemma filt_eq_vars l r p b : keeps b (filt_eq l r p b).
Proof. unfold filt_eq. destruct p; cbn [negb]; [|reflexivity]. destruct l, r; cbn [keeps snd]; auto using upd_eq_vars, upd_eq2_vars. Qed.
Lemma filt_gt_vars l r p b : keeps b (filt_gt l r p b).
Proof. unfold filt_gt. destruct l, r, p; auto using slb_vars, sub_vars; cbn [keeps snd]; auto using upd_lb_vars, upd_ub_vars. Qed.
Lemma filt_geq_vars l r p b : keeps b (filt_geq l r p b).
Proof. unfold filt_geq. destruct l, r, p; auto using slb_vars, sub_vars; cbn [keeps snd]; auto using upd_lb_vars, upd_ub_vars. Qed.
Lemma filt_vars f : forall p b, keeps b (filt f p b).
Proof.
  induction f; intros p b; cbn [filt]; try exact (eq_refl _); auto.
  match goal with o : relop |- _ => destruct o end; auto using filt_eq_vars, filt_gt_vars, filt_geq_vars.
Qed.
Lemma filter_vars f b r b' : filter_assertion f b = Some (r, b') -> bvars b' = bvars b.
Proof. intros E. generalize (filt_vars f true b). unfold filter_assertion in E. rewrite E. auto. Qed.

Lemma aw_box s v : cs_box (add_witness s v) = cs_box s. Proof. reflexivity. Qed.
Lemma fold_aw_box l : forall s, cs_box (fold_left add_witness l s) = cs_box s.
Proof. induction l as [|v l IH]; intros s; cbn [fold_left]; [reflexivity|]. rewrite IH. reflexivity. Qed.
Lemma au_box s f : cs_box (add_used s f) = cs_box s.
Proof. unfold add_used. destruct (b_empty (cs_box s)); cbn [cs_box]; [apply fold_aw_box|reflexivity]. Qed.

Section CacheP.
  Variables (esub : expr -> expr -> expr) (eneg : expr -> expr) (n : nat) (L : ibex).
  Variable fa : dbl -> list var -> formula -> box -> option (list ival).
  Variable fe : dbl -> formula -> box -> option (etype * ival).
  Variable rel : formula -> box -> option (etype * ival).
  Variables (term : list ival -> list ival -> bool) (m : nat).
  Variable srch : nat -> (cstat -> option cstat) -> (formula -> box -> option (etype * ival)) -> dbl -> list formula -> cstat -> option (bool * cstat).
  Notation lit_entry := (lit_entry esub eneg n).
  Notation get_entry := (get_entry esub eneg n).
  Notation build_cached := (build_cached esub eneg n).
  Notation tc_check := (tc_check esub eneg n L fa fe rel term m srch).
  Notation tc_run := (tc_run esub eneg n L fa fe rel term m srch).

  (** Every entry was built for one of the queries [past]. *)
  Definition c_inv (past : list query) (cc : list (formula * entry)) : Prop :=
    forall f e, In (f, e) cc -> exists q, In q past /\ In f (q_lits q) /\ lit_entry (q_prec q) (bvars (q_box q)) f = Some e.
  Definition e_inv (past : list query) (ec : list (formula * option dbl)) : Prop :=
    forall f x, In (f, x) ec -> exists q, In q past /\ In f (q_lits q) /\ x = if is_forall f then Some (q_prec q) else None.
  (** The entries are right for literals [fs] at precision [p] over [vars]. *)
  Definition c_right (p : dbl) (vars : list var) (fs : list formula) (cc : list (formula * entry)) : Prop :=
    forall f e, In f fs -> In (f, e) cc -> lit_entry p vars f = Some e.
  Definition e_right (p : dbl) (fs : list formula) (ec : list (formula * option dbl)) : Prop :=
    forall f x, In f fs -> In (f, x) ec -> x = if is_forall f then Some p else None.

  Lemma entry_same p p' vars f : (is_forall f = true -> p = p') -> lit_entry p vars f = lit_entry p' vars f.
  Proof. intros H. unfold Cache.lit_entry. destruct (is_forall f); [rewrite H by reflexivity|]; reflexivity. Qed.
  Lemma inv_right past q cc : unchanged past -> In q past -> c_inv past cc -> c_right (q_prec q) (bvars (q_box q)) (q_lits q) cc.
  Proof.
    intros U Hq I f e Hf He. destruct (I f e He) as (q' & Hq' & Hf' & E). destruct (U q q' f Hq Hq' Hf Hf') as [Ev Ep].
    rewrite Ev, (entry_same _ _ _ _ Ep). exact E.
  Qed.
  Lemma einv_right past q ec : unchanged past -> In q past -> e_inv past ec -> e_right (q_prec q) (q_lits q) ec.
  Proof.
    intros U Hq I f e Hf He. destruct (I f e He) as (q' & Hq' & Hf' & ->). destruct (U q q' f Hq Hq' Hf Hf') as [_ Ep].
    destruct (is_forall f); [rewrite Ep by reflexivity|]; reflexivity.
  Qed.

  Lemma get_right p vars fs f cc : In f fs -> c_right p vars fs cc ->
    match lit_entry p vars f with
    | Some e => exists cc', get_entry p vars f cc = Some (cc', e) /\ c_right p vars fs cc' /\ (forall x, In x cc' -> In x cc \/ x = (f, e))
    | None => get_entry p vars f cc = None
    end.
  Proof.
    intros Hf R. unfold Cache.get_entry. destruct (lookup f cc) as [e|] eqn:El.
    - apply lookup_in in El. rewrite (R f e Hf El). exists cc. auto.
    - destruct (lit_entry p vars f) as [e|] eqn:E; cbn [bind]; [|reflexivity]. exists ((f, e) :: cc). split; [reflexivity|]. split.
      + intros g e' Hg [Eq|Hi]; [|exact (R g e' Hg Hi)]. congruence.
      + intros x [<-|Hx]; auto.
  Qed.
  (** The result of the loop does not depend on the cache. *)
  Lemma build_right p vars all : forall fs cc cc0 s acc, incl fs all -> bvars (cs_box s) = vars -> c_right p vars all cc -> c_right p vars all cc0 ->
    match build_cached p fs s acc cc, build_cached p fs s acc cc0 with
    | Some (cc', r), Some (_, r0) => r = r0 /\ bvars (cs_box (fst r)) = vars /\ (forall f e, In (f, e) cc' -> In (f, e) cc \/ In f all /\ lit_entry p vars f = Some e)
    | None, None => True
    | _, _ => False
    end.
  Proof.
    induction fs as [|f fs IH]; intros cc cc0 s acc Sub V R R0; cbn [Cache.build_cached]; [auto|].
    assert (Hf : In f all) by (apply Sub; left; reflexivity). assert (Sub' : incl fs all) by (intros x Hx; apply Sub; right; exact Hx).
    destruct (filter_assertion f (cs_box s)) as [[r b']|] eqn:Ef; cbn [bind]; [|exact I].
    assert (V' : bvars b' = vars) by (rewrite <- V; exact (filter_vars _ _ _ _ Ef)).
    destruct r.
    - rewrite V'. generalize (get_right p vars all f cc Hf R) (get_right p vars all f cc0 Hf R0).
      destruct (lit_entry p vars f) as [e|] eqn:Ee; [|intros -> ->; cbn [bind]; exact I].
      intros (cc1 & -> & R1 & N1) (cc2 & -> & R2 & _). cbn [bind fst snd].
      set (s2 := if b_eqb _ _ then _ else _). assert (V2 : bvars (cs_box s2) = vars).
      { unfold s2. destruct (b_eqb _ _); [exact V'|]. rewrite au_box. exact V'. }
      specialize (IH cc1 cc2 s2 (acc ++ [e]) Sub' V2 R1 R2).
      destruct (build_cached p fs s2 (acc ++ [e]) cc1) as [[cc' x]|], (build_cached p fs s2 (acc ++ [e]) cc2) as [[cc0' y]|]; auto.
      destruct IH as (E & Vx & N). split; [exact E|]. split; [exact Vx|]. intros g e' Hg. destruct (N g e' Hg) as [Hi|Hi]; [|auto].
      destruct (N1 _ Hi) as [Hj|Hj]; [auto|]. right. assert (g = f /\ e' = e) as [-> ->] by (split; congruence). auto.
    - destruct (b_empty b').
      + split; [reflexivity|]. cbn [fst]. rewrite fold_aw_box, au_box. auto.
      + apply IH; auto. rewrite au_box. exact V'.
    - apply IH; auto.
  Qed.
  Lemma evs_right p all : forall fs ec ec0, incl fs all -> e_right p all ec -> e_right p all ec0 ->
    snd (evaluators p fs ec) = snd (evaluators p fs ec0) /\
    (forall f x, In (f, x) (fst (evaluators p fs ec)) -> In (f, x) ec \/ In f all /\ x = if is_forall f then Some p else None).
  Proof.
    induction fs as [|f fs IH]; intros ec ec0 Sub R R0; cbn [evaluators]; [auto|].
    assert (Hf : In f all) by (apply Sub; left; reflexivity). assert (Sub' : incl fs all) by (intros x Hx; apply Sub; right; exact Hx).
    assert (G : forall e1, e_right p all e1 -> exists e2, match lookup f e1 with Some x => (e1, x) | None => ((f, if is_forall f then Some p else None) :: e1, if is_forall f then Some p else None) end = (e2, if is_forall f then Some p else None) /\
              e_right p all e2 /\ forall x, In x e2 -> In x e1 \/ x = (f, if is_forall f then Some p else None)).
    { intros e1 R1. destruct (lookup f e1) as [x|] eqn:El.
      - apply lookup_in in El. exists e1. rewrite (R1 f x Hf El). auto.
      - eexists. split; [reflexivity|]. split; [|intros x [<-|Hx]; auto]. intros g x Hg [Eq|Hi]; [|exact (R1 g x Hg Hi)]. assert (Q : f = g) by (exact (f_equal fst Eq)). rewrite <- Q. exact (eq_sym (f_equal snd Eq)). }
    destruct (G ec R) as (e1 & -> & R1 & N1). destruct (G ec0 R0) as (e2 & -> & R2 & _).
    destruct (IH e1 e2 Sub' R1 R2) as [E N]. destruct (evaluators p fs e1) as [e3 r3], (evaluators p fs e2) as [e4 r4]. cbn [fst snd] in *.
    split; [congruence|]. intros g x Hg. destruct (N g x Hg) as [Hi|Hi]; [|auto]. destruct (N1 _ Hi) as [Hj|Hj]; [auto|]. right.
    assert (Q : g = f) by exact (f_equal fst Hj). split; [now rewrite Q|]. rewrite Q. exact (f_equal snd Hj).
  Qed.

  Definition inv (past : list query) (c : tcache) : Prop := c_inv past (t_ctcs c) /\ e_inv past (t_evs c).
  Lemma inv0 past : inv past cache0. Proof. split; intros f e []. Qed.
  (** One check: the answer of a fresh solver. *)
  Lemma check_fresh past t q c : unchanged past -> In q past -> inv past c ->
    match tc_check t q c with
    | Some (c', r) => fresh tc_check t q = Some r /\ inv past c'
    | None => fresh tc_check t q = None
    end.
  Proof.
    intros U Hq [Ic Ie]. unfold fresh, Cache.tc_check.
    assert (Re := einv_right past q _ U Hq Ie). assert (Re0 : e_right (q_prec q) (q_lits q) (t_evs cache0)) by (intros f x _ []).
    assert (EV : forall s (pr : cstat -> option cstat) cc cc0, c_inv past cc ->
      match (let (ec, evs) := evaluators (q_prec q) (q_lits q) (t_evs c) in
             bind (srch t pr (run_ev fe rel evs) (q_prec q) (q_lits q) s) (fun r => let s' := snd r in
               Some (mkTcache cc ec, if b_empty (cs_box s') then TUnsat (explanation (cs_wit s') (cs_used s')) else TSat (cs_box s')))) with
      | Some (c', r) => match (let (ec, evs) := evaluators (q_prec q) (q_lits q) (t_evs cache0) in
             bind (srch t pr (run_ev fe rel evs) (q_prec q) (q_lits q) s) (fun r => let s' := snd r in
               Some (mkTcache cc0 ec, if b_empty (cs_box s') then TUnsat (explanation (cs_wit s') (cs_used s')) else TSat (cs_box s')))) with Some (_, r0) => Some r0 | None => None end = Some r /\ inv past c'
      | None => match (let (ec, evs) := evaluators (q_prec q) (q_lits q) (t_evs cache0) in
             bind (srch t pr (run_ev fe rel evs) (q_prec q) (q_lits q) s) (fun r => let s' := snd r in
               Some (mkTcache cc0 ec, if b_empty (cs_box s') then TUnsat (explanation (cs_wit s') (cs_used s')) else TSat (cs_box s')))) with Some (_, r0) => Some r0 | None => None end = None
      end).
    { intros s pr cc cc0 I'. destruct (evs_right (q_prec q) (q_lits q) (q_lits q) (t_evs c) (t_evs cache0) (incl_refl _) Re Re0) as [E N].
      destruct (evaluators (q_prec q) (q_lits q) (t_evs c)) as [ec evs], (evaluators (q_prec q) (q_lits q) (t_evs cache0)) as [ec0 evs0]. cbn [fst snd] in E, N. rewrite E.
      destruct (srch t pr (run_ev fe rel evs0) (q_prec q) (q_lits q) s) as [r|]; cbn [bind]; [|reflexivity]. split; [reflexivity|]. split; [exact I'|]. cbn [t_evs].
      intros f x Hx. destruct (N f x Hx) as [Hi|[Hf ->]]; [exact (Ie f x Hi)|]. exists q. auto. }
    destruct (q_lits q) as [|f0 fs0] eqn:El; [cbn [bind]; apply EV; exact Ic|]. rewrite <- El in *. clear f0 fs0 El.
    assert (Rc := inv_right past q _ U Hq Ic). assert (Rc0 : c_right (q_prec q) (bvars (q_box q)) (q_lits q) (t_ctcs cache0)) by (intros f x _ []).
    generalize (build_right (q_prec q) (bvars (q_box q)) (q_lits q) (q_lits q) (t_ctcs c) (t_ctcs cache0) (cs_new (q_box q) None) [] (incl_refl _) eq_refl Rc Rc0).
    destruct (build_cached (q_prec q) (q_lits q) (cs_new (q_box q) None) [] (t_ctcs c)) as [[cc r]|], (build_cached (q_prec q) (q_lits q) (cs_new (q_box q) None) [] (t_ctcs cache0)) as [[cc0 r0]|]; cbn [bind]; try tauto.
    intros (<- & _ & N). cbn [fst snd].
    assert (I' : c_inv past cc). { intros f e He. destruct (N f e He) as [Hi|[Hf Ef]]; [exact (Ic f e Hi)|]. exists q. auto. }
    destruct r as [s [es|]]; cbn [fst snd]; [apply EV; exact I'|]. split; [reflexivity|]. split; [exact I'|exact Ie].
  Qed.

  Notation fresh_run := (fresh_run tc_check).
  Theorem cache_unobservable t qs : unchanged qs ->
    match tc_run t qs cache0 with Some (_, rs) => Some rs | None => None end = all_of (fresh_run t qs).
  Proof.
    intros U. assert (G : forall l t c, incl l qs -> inv qs c -> match tc_run t l c with Some (_, rs) => Some rs | None => None end = all_of (fresh_run t l)).
    { induction l as [|q l IH]; intros t0 c Sub I; cbn [Cache.tc_run SpecCache.fresh_run all_of]; [reflexivity|].
      generalize (check_fresh qs t0 q c U (Sub q (or_introl eq_refl)) I). destruct (tc_check t0 q c) as [[c' r]|]; cbn [bind fst snd]; [|intros ->; reflexivity].
      intros [-> I']. rewrite <- (IH (S t0) c' (fun x Hx => Sub x (or_intror Hx)) I'). destruct (tc_run (S t0) l c') as [[c2 rs]|]; reflexivity. }
    apply G; [apply incl_refl|apply inv0].
  Qed.
End CacheP.
