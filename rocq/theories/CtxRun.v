(** * Every run of the context keeps the invariant; unsat answers are right (behind C01) *)
From Coq Require Import ZArith Reals Lra Lia List Bool Arith Classical ClassicalDescription.
From Flocq Require Import IEEE754.BinarySingleNaN.
From Verif Require Import Dbl DblProofs Syntax Sem SemProofs FormulaCons FormulaConsProofs SpecForm Nnf NnfProofs PredAbs PredAbsProofs Tseitin TseitinProofs ConsUnfolded
  Scoped SpecScoped ScopedProofs Interval IntervalProofs MathConv MathConvProofs IEval Contr Icp IcpTop Filter FilterProofs Theory TheoryTop IteElim SpecIte IteElimProofs
  IbexConv Regular RegularProofs Wff WffProofs Sat Context CtxStruct SatSem CdclProofs SpecCtx CtxBox CtxSem.
Import ListNotations.

(** [b'] is [b] with some Boolean dimensions fixed. *)
Record bool_upd (b b' : box) : Prop := {
  bu_vars : bvars b' = bvars b;
  bu_ok : box_ok b';
  bu_rng : int_range b';
  bu_in : forall rho, well_typed rho -> in_box rho b -> exists rho', (forall v, vty v <> BOOLEAN -> rho' v = rho v) /\ well_typed rho' /\ in_box rho' b' }.
Lemma bu_refl b : box_ok b -> int_range b -> bool_upd b b.
Proof. intros K R. split; auto. intros rho W I. exists rho. auto. Qed.
Definition bval (x : bool) : R := if x then 1%R else 0%R.
Lemma point_mem (x : bool) : imem (bval x) (i_point (if x then dZ 1 else dzero)).
Proof.
  unfold i_point. destruct x; cbn [bval].
  - assert (F : is_finite (dZ 1) = true /\ B2R (dZ 1) = 1%R) by (apply (dZ_exact 1); cbn; lia). destruct F as [F1 F2].
    apply mk_ival_mem; [destruct (dZ 1); try discriminate; reflexivity|destruct (dZ 1); try discriminate; reflexivity|]. rewrite (finite_d2e _ F1), F2. split; apply Rle_refl.
  - apply mk_ival_mem; [reflexivity|reflexivity|]. split; apply Rle_refl.
Qed.
Lemma bu_set b b' v (x : bool) : bool_upd b b' -> In v (bvars b) -> vty v = BOOLEAN -> bool_upd b (b_setv b' v (i_point (if x then dZ 1 else dzero))).
Proof.
  intros [V K Rg I] Hv Ty. assert (Hv' : In v (bvars b')) by (rewrite V; exact Hv). split.
  - exact V.
  - apply setv_ok; [exact K|apply mk_ival_ok].
  - apply setv_range; auto. rewrite Ty. discriminate.
  - intros rho W Ib. destruct (I rho W Ib) as (r & A1 & A2 & A3). exists (fun w => if var_eqb w v then bval x else r w). split; [|split].
    + intros w Nb. destruct (var_eqb w v) eqn:E; [apply var_eqb_eq in E; congruence|exact (A1 w Nb)].
    + intros w. destruct (var_eqb w v) eqn:E; [|exact (A2 w)]. apply var_eqb_eq in E. subst w. rewrite Ty. destruct x; cbn; auto.
    + destruct A3 as [A3 A4]. pose proof (idx0_nth b' v Hv') as Ni. pose proof (box_ok_len b' _ v K Ni) as Li. unfold b_setv.
      assert (Cm : forall i w, nth_error (bvars b') i = Some w -> imem (if var_eqb w v then bval x else r w) (b_get (b_set b' (b_idx0 b' v) (i_point (if x then dZ 1 else dzero))) i)).
      { intros i w Hi. destruct (Nat.eq_dec (b_idx0 b' v) i) as [Ei|Ne].
        - subst i. rewrite Ni in Hi. injection Hi as <-. rewrite (proj2 (var_eqb_eq v v) eq_refl), b_get_set_eq by exact Li. apply point_mem.
        - rewrite b_get_set_ne by exact Ne. destruct (var_eqb w v) eqn:E; [|exact (A4 i w Hi)]. apply var_eqb_eq in E. subst w. exfalso. apply Ne.
          destruct K as (Nd & _). rewrite NoDup_nth_error in Nd. apply Nd; [apply nth_error_Some; congruence|congruence]. }
      split; [|exact Cm]. rewrite b_empty_get. destruct (bvars b') as [|w l] eqn:Ev; [destruct Hv'|]. exact (imem_nonempty _ _ (Cm 0%nat w eq_refl)).
Qed.
Lemma bu_bools b (bm : list (var * bool)) : (forall v x, In (v, x) bm -> In v (bvars b) /\ vty v = BOOLEAN) -> forall b', bool_upd b b' -> bool_upd b (set_bools bm b').
Proof.
  unfold set_bools. induction bm as [|[v x] bm IH]; intros H b' U; cbn [fold_left fst snd]; [exact U|].
  apply IH; [intros; eapply H; right; eauto|]. destruct (H v x (or_introl eq_refl)). apply bu_set; auto.
Qed.

(** Without if-then-else the variables of a term are its theory variables. *)
Lemma wf_noite (q pv bq : var -> Prop) : forall e, wfE q pv bq e -> hasIteE e = false -> forall v, In v (fvE e) -> q v.
Proof.
  refine (proj1 (expr_formula_ind2 (fun e => wfE q pv bq e -> hasIteE e = false -> forall v, In v (fvE e) -> q v) (fun _ => True) _ _ _ _ _ _ _ _ _ _ _ _ _ _ _ _ _)); try (intros; exact Logic.I).
  - intros c _ _ v [].
  - intros lb ub c _ _ v [].
  - intros v H _ w [<-|[]]. exact H.
  - intros c ts H [_ W] X v Hv. cbn [fvE hasIteE] in *. induction H as [|[a k] ts Ha Hts IH]; cbn [fold_right flat_map existsb fst] in *; [contradiction|].
    destruct W as [[W1 _] W2]. apply orb_false_iff in X. destruct X as [X1 X2]. apply in_app_or in Hv. destruct Hv; auto.
  - intros c ts H [_ W] X v Hv. cbn [fvE hasIteE] in *. induction H as [|[a k] ts [Ha Hk] Hts IH]; cbn [fold_right flat_map existsb fst snd] in *; [contradiction|].
    destruct W as [[W1 W3] W2]. apply orb_false_iff in X. destruct X as [X1 X2]. apply orb_false_iff in X1. destruct X1 as [X1 X3].
    apply in_app_or in Hv. destruct Hv as [Hv|]; auto. apply in_app_or in Hv. destruct Hv; auto.
  - intros o a IH H X v Hv. exact (IH H X v Hv).
  - intros o a b IH1 IH2 [A B] X v Hv. cbn [fvE hasIteE] in *. apply orb_false_iff in X. destruct X. apply in_app_or in Hv. destruct Hv; auto.
  - intros f a b _ _ _ _ X. discriminate X.
  - intros k vs H _ v Hv. exact (H v Hv).
Qed.

(** The variables of an atom are theory variables of the box. *)
Lemma key_tvars fold (qa : Prop) b a : abs_key fold a -> wfF (tvars b) isbool (fun _ => qa) a -> hasIteF a = false -> forall v, In v (fvF a) -> tvars b v.
Proof.
  intros Ka W Ni v Hv. destruct Ka as [(x & y & -> & _)|[(x & y & -> & _)|[(x & y & -> & _)|(vs & g & ->)]]];
    try (destruct W as [W1 W2]; cbn [hasIteF fvF] in Ni, Hv; apply orb_false_iff in Ni; destruct Ni as [N1 N2]; apply in_app_or in Hv;
       destruct Hv as [Hv|Hv]; [exact (wf_noite _ _ _ x W1 N1 v Hv)|exact (wf_noite _ _ _ y W2 N2 v Hv)]).
  destruct W as [_ W]. cbn [fvF] in Hv. apply filter_In in Hv. destruct Hv as [Hv Nv]. destruct (body_fv _ g W v Hv) as [X|X]; [exact X|].
  apply mem_var_In in X. rewrite X in Nv. discriminate.
Qed.
(** Without quantifiers every atom is a comparison. *)
Lemma key_nq fold b a : abs_key fold a -> wfF (tvars b) isbool (fun _ => False) a -> is_forall a = false.
Proof. intros Ka W. destruct Ka as [(x & y & -> & _)|[(x & y & -> & _)|[(x & y & -> & _)|(vs & g & ->)]]]; try reflexivity. destruct W as [[[_ []] _] _]. Qed.

Section Check.
  Variables (M : interp) (D : pdom) (fold : expr -> expr -> option dbl) (pico : pico_t) (T : nat -> box -> list formula -> option tres).
  Variables (qa : Prop) (okA : formula -> Prop) (okV : var -> Prop).
  Notation hd := (holds M).
  (** A literal the context hands to the theory solver. *)
  Definition tlit (b : box) (f : formula) : Prop := exists a, abs_key fold a /\ atom_ok fold qa b a /\ okA a /\ (f = a \/ f = FNot a).
  Definition T_sound : Prop := forall t b fs E, box_ok b -> int_range b -> (forall v, In v (bvars b) -> okV v) -> (forall f, In f fs -> tlit b f) ->
    T t b fs = Some (TUnsat E) -> incl E fs /\
    forall rho, well_typed rho -> in_box rho b -> (forall f, In f E -> regular M D f rho) -> ~ (forall f, In f E -> hd f rho).
  Hypothesis P_ok : pico_ok pico.
  Hypothesis T_ok : T_sound.

  Lemma tlit_bool b f v : tlit b f -> In v (fvF f) -> vty v <> BOOLEAN.
  Proof.
    intros (a & Ka & (W & Ni & _) & _ & E) H. assert (Hv : In v (fvF a)) by (destruct E as [->| ->]; exact H).
    exact (proj2 (key_tvars fold qa b a Ka W Ni v Hv)).
  Qed.
  Lemma tlit_reg b f rho : tlit b f -> forall a, (f = a \/ f = FNot a) -> regular M D a rho -> regular M D f rho.
  Proof. intros _ a [->| ->] H; exact H. Qed.

  Definition fine (b0 : box) (s : satst) (rho : env) : Prop :=
    well_typed rho /\ in_box rho b0 /\ forall v k a, sat_of s v = Some k -> In (v, a) (ss_pa s) -> regular M D a rho.
  Record score (b0 : box) (s : satst) (nx : nat) : Prop := {
    sc_ok : sok fold s nx;
    sc_v : forall v, In v (bvars b0) -> okV v;
    sc_a : forall v a, In (v, a) (ss_pa s) -> okA a;
    sc_var : forall v k, sat_of s v = Some k -> (exists a, In (v, a) (ss_pa s) /\ atom_ok fold qa b0 a) \/
       ((forall a, ~ In (v, a) (ss_pa s)) /\ (is_tse s v = true \/ (In v (bvars b0) /\ vty v = BOOLEAN))) }.

  Lemma lits_tlit b0 b s nx a bm tm fs : score b0 s nx -> bvars b = bvars b0 -> sat_model s a = (bm, tm) -> theory_lits s tm = Some fs -> forall f, In f fs -> tlit b f.
  Proof.
    intros [[SI SK] V A Vr] Ev Em Ef f Hf. apply (theory_lits_assigned s a bm tm fs SI Em Ef) in Hf. destruct Hf as (v & k & val & at_ & H1 & H2 & _ & ->).
    apply theory_literal_in in H2. pose proof (pk_key fold _ SK v at_ H2) as Ka. exists at_. split; [exact Ka|]. split; [|split; [exact (A v at_ H2)|]].
    - destruct (Vr v k H1) as [(a' & B1 & B2)|[B1 _]]; [|destruct (B1 at_ H2)]. rewrite (pk_fun fold _ SK v at_ a' H2 B1).
      revert B2. apply atom_mono. rewrite Ev. apply incl_refl.
    - destruct val; [left; reflexivity|right; apply (key_not fold at_ Ka)].
  Qed.
  Lemma bools_box b0 s nx a bm tm : score b0 s nx -> sat_model s a = (bm, tm) -> forall v x, In (v, x) bm -> In v (bvars b0) /\ vty v = BOOLEAN.
  Proof.
    intros [[SI SK] V A Vr] Em v x H. destruct (sat_model_spec s a bm tm SI Em) as [_ B]. apply B in H. destruct H as (i & _ & H1 & H2 & H3).
    destruct (Vr v i H1) as [(a' & B1 & _)|[_ [B1|B1]]]; [|congruence|exact B1]. exfalso.
    assert (X : in_pa s v = true); [|congruence]. unfold in_pa. apply existsb_exists. exists (v, a'). split; [exact B1|]. apply var_eqb_eq. reflexivity.
  Qed.
  Lemma lit_of_neg s nx rho f l : sok fold s nx -> neg_lit s f l -> ~ hd f rho -> ltrue (tv M (ss_pa s) rho) (sym_of s) l.
  Proof.
    intros [SI SK] (v & at_ & H1 & H2 & ->) Nf. exists v. split; [apply (iv_sat s SI); exact H1|]. apply theory_literal_in in H2.
    assert (X : tv M (ss_pa s) rho v <-> hd at_ rho).
    { unfold tv. split; [|intros H; left; eauto]. intros [(a & B1 & B2)|[B _]]; [|destruct (B at_ H2)]. rewrite (pk_fun fold _ SK v at_ a H2 B1). exact B2. }
    rewrite X. destruct (snd l); cbn beta iota in Nf; (split; intros H); [reflexivity| |destruct (Nf H)|discriminate H].
    destruct (classic (hd at_ rho)) as [|C]; [assumption|]. exfalso. apply Nf. rewrite (key_not fold at_ (pk_key fold _ SK v at_ H2)). exact C.
  Qed.
  Lemma learned_true b0 b s nx t fs E L rho : score b0 s nx -> bool_upd b0 b -> (forall f, In f fs -> tlit b f) -> T t b fs = Some (TUnsat E) ->
    Forall2 (neg_lit s) E L -> fine b0 s rho -> ctrue (tv M (ss_pa s) rho) (sym_of s) L.
  Proof.
    intros Sc [V K Rg In'] Hl Et F2 (W & I & Rr).
    destruct (T_ok t b fs E K Rg (fun v Hv => sc_v _ _ _ Sc v (eq_ind _ (fun l => In v l) Hv _ V)) Hl Et) as [Sub No].
    destruct (In' rho W I) as (r & A1 & A2 & A3).
    assert (Ag : forall f, In f E -> forall v, In v (fvF f) -> rho v = r v) by (intros f Hf v Hv; symmetry; apply A1; apply (tlit_bool b f v (Hl f (Sub f Hf)) Hv)).
    destruct (classic (exists f, In f E /\ ~ hd f rho)) as [(f & Hf & Nf)|C].
    - destruct (Forall2_In_l _ _ _ _ F2 Hf) as (l & Hl' & Nl). exists l. split; [exact Hl'|]. exact (lit_of_neg s nx rho f l (sc_ok _ _ _ Sc) Nl Nf).
    - exfalso. apply (No r A2 A3).
      + intros f Hf. apply (proj2 (reg_agree M D off_gaps) f rho r (Ag f Hf)). destruct (Forall2_In_l _ _ _ _ F2 Hf) as (l & _ & v & at_ & H1 & H2 & ->).
        apply theory_literal_in in H2. pose proof (Rr v _ at_ H1 H2) as Ra. destruct (snd l); [|exact Ra]. rewrite (key_not fold at_ (pk_key fold _ (proj2 (sc_ok _ _ _ Sc)) v at_ H2)). exact Ra.
      + intros f Hf. apply (holds_agree M f rho r (Ag f Hf)). destruct (classic (hd f rho)) as [|N]; [assumption|]. exfalso. apply C. eauto.
  Qed.

  Lemma core_sem n : forall b0 b s nx t ob s' nx' t', score b0 s nx -> bool_upd b0 b -> core_loop fold pico T n b s nx t = Some (ob, s', nx', t') ->
    nx' = nx /\ ss_pa s' = ss_pa s /\ ss_max s' = ss_max s /\ (forall v, sat_of s' v = sat_of s v) /\ (forall k, sym_of s' k = sym_of s k) /\ ss_tse s' = ss_tse s /\
    (exists learned, sv_vec (ss_clauses s') = sv_vec (ss_clauses s) ++ learned /\
      (forall L l, In L learned -> In l L -> exists v, sym_of s (fst l) = Some v) /\
      forall rho, fine b0 s rho -> forall L, In L learned -> ctrue (tv M (ss_pa s) rho) (sym_of s) L) /\
    (ob = None -> forall rho, fine b0 s rho -> ~ forall L, In L (sv_vec (ss_clauses s)) -> ctrue (tv M (ss_pa s) rho) (sym_of s) L).
  Proof.
    induction n as [|n IH]; intros b0 b s nx t ob s' nx' t' Sc U E; [discriminate|]. cbn [core_loop] in E.
    assert (Z : forall ob0 : option box, Some (ob0, s, nx, S t) = Some (ob, s', nx', t') -> ob0 = ob /\ s = s' /\ nx = nx') by (intros ob0 X; injection X as <- <- <- _; auto).
    assert (Same : ob <> None -> nx = nx' -> s = s' -> nx' = nx /\ ss_pa s' = ss_pa s /\ ss_max s' = ss_max s /\ (forall v, sat_of s' v = sat_of s v) /\ (forall k, sym_of s' k = sym_of s k) /\ ss_tse s' = ss_tse s /\
      (exists learned, sv_vec (ss_clauses s') = sv_vec (ss_clauses s) ++ learned /\
        (forall L l, In L learned -> In l L -> exists v, sym_of s (fst l) = Some v) /\
        forall rho, fine b0 s rho -> forall L, In L learned -> ctrue (tv M (ss_pa s) rho) (sym_of s) L) /\
      (ob = None -> forall rho, fine b0 s rho -> ~ forall L, In L (sv_vec (ss_clauses s)) -> ctrue (tv M (ss_pa s) rho) (sym_of s) L)).
    { intros No <- <-. do 6 (split; [auto|]). split; [|intros C; contradiction]. exists []. rewrite app_nil_r. split; [reflexivity|]. split; [intros ? ? []|intros ? ? ? []]. }
    destruct (pico t (ss_popped s) (sv_vec (ss_clauses s)) (ss_max s)) as [a| |] eqn:Ep; [|clear Same|discriminate].
    - destruct (sat_model s a) as [bm tm] eqn:Em. pose proof (bu_bools b0 bm (bools_box b0 s nx a bm tm Sc Em) b U) as U1.
      destruct tm as [|p tm]; [destruct (Z _ E) as (<- & E1 & E2); apply Same; [discriminate|exact E2|exact E1]|].
      destruct (theory_lits s (p :: tm)) as [fs|] eqn:Ef; cbn [bind] in E; [|discriminate].
      pose proof (lits_tlit b0 (set_bools bm b) s nx a bm _ fs Sc (bu_vars _ _ U1) Em Ef) as Hl.
      destruct (T t (set_bools bm b) fs) as [[m|E0]|] eqn:Et; cbn [bind] in E; [destruct (Z _ E) as (<- & E1 & E2); apply Same; [discriminate|exact E2|exact E1]| |discriminate].
      destruct (T_ok t _ fs E0 (bu_ok _ _ U1) (bu_rng _ _ U1) (fun v Hv => sc_v _ _ _ Sc v (eq_ind _ (fun l => In v l) Hv _ (bu_vars _ _ U1))) Hl Et) as [Sub _].
      destruct (sc_ok _ _ _ Sc) as [SI SK].
      destruct (learn_spec fold s nx E0 a SK) as (L & EL & F2 & _); [intros f Hf; apply (theory_lits_assigned s a bm _ fs SI Em Ef); exact (Sub f Hf)|].
      rewrite EL in E. cbn [bind fst snd] in E.
      assert (Sc' : score b0 (with_clause L s) nx).
      { destruct Sc as [C1 C2 C3 C4]. split; [exact (learned_ok fold s nx E0 L C1 F2)|exact C2|exact C3|exact C4]. }
      destruct (IH b0 _ (with_clause L s) nx (S t) ob s' nx' t' Sc' U1 E) as (A1 & A2 & A3 & A4 & A5 & A6 & (ln & A7 & A8 & A9) & A10).
      split; [exact A1|]. split; [exact A2|]. split; [exact A3|]. split; [exact A4|]. split; [exact A5|]. split; [exact A6|].
      assert (Lt : forall rho, fine b0 s rho -> ctrue (tv M (ss_pa s) rho) (sym_of s) L) by (intros rho; exact (learned_true b0 _ s nx t fs E0 L rho Sc U1 Hl Et F2)).
      split.
      + exists (L :: ln). cbn [with_clause ss_clauses sv_push_back sv_vec] in A7. split; [rewrite A7, <- app_assoc; reflexivity|]. split.
        * intros L' l [<-|H] Hl'; [exact (neg_lit_sym s E0 L SI F2 l Hl')|exact (A8 L' l H Hl')].
        * intros rho Fr L' [<-|H]; [exact (Lt rho Fr)|exact (A9 rho Fr L' H)].
      + intros Eo rho Fr C. apply (A10 Eo rho Fr). intros L' HL. cbn [with_clause ss_clauses sv_push_back sv_vec] in HL. apply in_app_or in HL.
        destruct HL as [HL|[<-|[]]]; [exact (C L' HL)|exact (Lt rho Fr)].
    - destruct (Z _ E) as (<- & <- & <-). do 6 (split; [auto|]). split.
      { exists []. rewrite app_nil_r. split; [reflexivity|]. split; [intros ? ? []|intros ? ? ? []]. }
      intros _ rho Fr C. pose proof (P_ok t (ss_popped s) (sv_vec (ss_clauses s)) (ss_max s)) as P. rewrite Ep in P. apply P.
      exists (fun k => match sym_of s k with Some v => if excluded_middle_informative (tv M (ss_pa s) rho v) then true else false | None => false end).
      intros L HL. destruct (C L HL) as (l & Hl & v & Ev & X). exists l. split; [exact Hl|]. rewrite Ev. destruct (excluded_middle_informative _) as [Y|Y].
      + symmetry. apply X. exact Y.
      + destruct (snd l); [|reflexivity]. exfalso. apply Y. apply X. reflexivity.
  Qed.
End Check.

(** ** The abstraction map only grows *)
Section Grow.
  Variables (fold : expr -> expr -> option dbl) (K : eops) (pico : pico_t) (T : nat -> box -> list formula -> option tres) (mid : dbl -> dbl -> dbl) (precision : dbl).
  Lemma pa_atomic_incl f s : incl (pa_map s) (pa_map (snd (pa_atomic f s))).
  Proof. unfold pa_atomic. destruct (pa_find f s); cbn [snd pa_map]; [apply incl_refl|intros x H; right; exact H]. Qed.
  Lemma pa_visit_incl f : forall s, incl (pa_map s) (pa_map (snd (pa_visit fold f s))).
  Proof.
    assert (Sm : forall fs, Forall (fun f => forall s, incl (pa_map s) (pa_map (snd (pa_visit fold f s)))) fs -> forall s, incl (pa_map s) (pa_map (snd (smap (pa_visit fold) fs s)))).
    { induction 1 as [|f0 fs Hf Hfs IH]; intros s; cbn [smap]; [apply incl_refl|]. pose proof (Hf s) as X. destruct (pa_visit fold f0 s) as [g s1]. pose proof (IH s1) as Y.
      destruct (smap (pa_visit fold) fs s1) as [r s2]. cbn [snd] in *. exact (incl_tran X Y). }
    assert (Ng : forall f0 s, incl (pa_map s) (pa_map (snd (pa_neg_atomic f0 s)))).
    { intros f0 s. unfold pa_neg_atomic. pose proof (pa_atomic_incl f0 s) as X. destruct (pa_atomic f0 s) as [g s1]. exact X. }
    induction f as [| |v|o a b|fs IH|fs IH|f IH|vs f IH] using formula_ind'; intros s; cbn [pa_visit]; (destruct (pa_find _ s); [apply incl_refl|]); try apply incl_refl.
    - destruct o; auto using pa_atomic_incl.
    - pose proof (Sm fs IH s) as X. destruct (smap (pa_visit fold) fs s) as [r s1]. exact X.
    - pose proof (Sm fs IH s) as X. destruct (smap (pa_visit fold) fs s) as [r s1]. exact X.
    - pose proof (IH s) as X. destruct (pa_visit fold f s) as [g s1]. exact X.
    - apply pa_atomic_incl.
  Qed.
  Lemma pa_smap_incl fs : forall s r s', smap (pa_convert fold) fs s = (r, s') -> incl (pa_map s) (pa_map s').
  Proof.
    induction fs as [|f fs IH]; intros s r s' E; cbn [smap] in E; [injection E as <- <-; apply incl_refl|].
    pose proof (pa_visit_incl f s) as X. unfold pa_convert in E at 1. destruct (pa_visit fold f s) as [g s1]. destruct (smap (pa_convert fold) fs s1) as [r' s2] eqn:E2. injection E as <- <-.
    exact (incl_tran X (IH _ _ _ E2)).
  Qed.
  Lemma make_vars_pa vs : forall s, ss_pa (fold_left make_sat_var vs s) = ss_pa s.
  Proof. induction vs as [|v vs IH]; intros s; cbn [fold_left]; [reflexivity|]. rewrite IH. unfold make_sat_var. destruct (sat_of s v); reflexivity. Qed.
  Lemma add_clauses_pa gs : forall s s', sat_add_clauses gs s = Some s' -> ss_pa s' = ss_pa s.
  Proof.
    induction gs as [|g gs IH]; intros s s' E; cbn [sat_add_clauses] in E; [injection E as <-; reflexivity|].
    destruct (sat_add_clause g s) as [s1|] eqn:E1; cbn [bind] in E; [|discriminate]. rewrite (IH _ _ E). unfold sat_add_clause in E1.
    destruct (lits_of _ _) as [L|]; cbn [bind] in E1; [|discriminate]. injection E1 as <-. apply (make_vars_pa (fvF g) s).
  Qed.
  Lemma add_formula_pa f n s q : sat_add_formula fold f n s = Some q -> incl (ss_pa s) (ss_pa (fst q)).
  Proof.
    unfold sat_add_formula. destruct (ts_convert fold f n) as [[cs|] t]; cbn [bind]; [|discriminate]. cbn [with_tse ss_pa].
    destruct (smap (pa_convert fold) cs _) as [gs p] eqn:E1. destruct (sat_add_clauses gs _) as [s2|] eqn:E2; cbn [bind]; [|discriminate]. intros [= <-]. cbn [fst].
    rewrite (add_clauses_pa _ _ _ E2). exact (pa_smap_incl _ _ _ _ E1).
  Qed.
  Lemma learn_pa E n s q : sat_learn fold E n s = Some q -> incl (ss_pa s) (ss_pa (fst q)).
  Proof.
    unfold sat_learn. destruct (smap (pa_convert fold) E _) as [gs p] eqn:E1. destruct (lits_of _ _) as [L|]; cbn [bind]; [|discriminate]. intros [= <-]. exact (pa_smap_incl _ _ _ _ E1).
  Qed.
  Lemma core_pa n : forall b s nx t ob s' nx' t', core_loop fold pico T n b s nx t = Some (ob, s', nx', t') -> incl (ss_pa s) (ss_pa s').
  Proof.
    induction n as [|n IH]; intros b s nx t ob s' nx' t' E; cbn [core_loop] in E; [discriminate|].
    destruct (pico t _ _ _) as [a| |]; [|injection E as <- <- <- <-; apply incl_refl|discriminate].
    destruct (sat_model s a) as [bm tm]. destruct tm as [|p tm]; [injection E as <- <- <- <-; apply incl_refl|].
    destruct (theory_lits s (p :: tm)) as [fs|]; cbn [bind] in E; [|discriminate].
    destruct (T t _ fs) as [[m|E0]|]; cbn [bind] in E; [injection E as <- <- <- <-; apply incl_refl| |discriminate].
    destruct (sat_learn fold E0 nx s) as [q|] eqn:El; cbn [bind] in E; [|discriminate]. apply learn_pa in El. exact (incl_tran El (IH _ _ _ _ _ _ _ _ E)).
  Qed.
  Lemma set_box_pa b c c' : cx_set_box b c = Some c' -> ss_pa (cx_sat c') = ss_pa (cx_sat c).
  Proof. unfold cx_set_box. destruct (sv_set_last b (cx_boxes c)); try discriminate. intros [= <-]. reflexivity. Qed.
  Lemma declare_pa v m c c' : cx_declare v m c = Some c' -> ss_pa (cx_sat c') = ss_pa (cx_sat c).
  Proof.
    unfold cx_declare. destruct (cx_box c) as [b|]; cbn [bind]; [|discriminate]. destruct (cx_set_box _ c) as [c1|] eqn:E; cbn [bind]; [|discriminate]. intros [= <-].
    apply set_box_pa in E. destruct (_ && _)%bool; exact E.
  Qed.
  Lemma interval_pa v l u c c' : cx_set_interval v l u c = Some c' -> ss_pa (cx_sat c') = ss_pa (cx_sat c).
  Proof. unfold cx_set_interval. destruct (cx_box c) as [b|]; cbn [bind]; [|discriminate]. apply set_box_pa. Qed.
  Lemma step_pa o c c' a : cx_step fold K pico T mid precision o c = Some (c', a) -> incl (ss_pa (cx_sat c)) (ss_pa (cx_sat c')).
  Proof.
    intros E. destruct o; cbn [cx_step] in E.
    - destruct (Nat.eqb _ _); [|discriminate]. injection E as <- <-. apply incl_refl.
    - destruct (cx_declare v model c) as [c1|] eqn:E1; cbn [bind] in E; [|discriminate]. injection E as <- <-. rewrite (declare_pa _ _ _ _ E1). apply incl_refl.
    - destruct (cx_declare v model c) as [c1|] eqn:E1; cbn [bind] in E; [|discriminate]. destruct (cx_set_interval v l u c1) as [c2|] eqn:E2; cbn [bind] in E; [|discriminate].
      injection E as <- <-. rewrite (interval_pa _ _ _ _ _ E2), (declare_pa _ _ _ _ E1). apply incl_refl.
    - destruct (cx_set_interval v l u c) as [c2|] eqn:E2; cbn [bind] in E; [|discriminate]. injection E as <- <-. rewrite (interval_pa _ _ _ _ _ E2). apply incl_refl.
    - destruct (cx_assert fold K f c) as [c1|] eqn:E1; cbn [bind] in E; [|discriminate]. injection E as <- <-. unfold cx_assert in E1.
      destruct (is_true f); [injection E1 as <-; apply incl_refl|]. destruct (cx_box c) as [b|]; cbn [bind] in E1; [|discriminate]. destruct (b_empty b); [injection E1 as <-; apply incl_refl|].
      destruct (is_false f); [apply set_box_pa in E1; rewrite E1; apply incl_refl|]. destruct (filter_assertion f b) as [[r b']|]; cbn [bind fst snd] in E1; [|discriminate].
      destruct r; try (apply set_box_pa in E1; rewrite E1; apply incl_refl). destruct (ite_process fold K f (cx_next c)) as [g s].
      destruct (cx_set_box _ c) as [c2|] eqn:E2; cbn [bind] in E1; [|discriminate]. destruct (sat_add_formula fold g (it_next s) (cx_sat c2)) as [q|] eqn:E3; cbn [bind] in E1; [|discriminate].
      injection E1 as <-. apply add_formula_pa in E3. apply set_box_pa in E2. rewrite <- E2. exact E3.
    - destruct (cx_push c) as [c1|] eqn:E1; cbn [bind] in E; [|discriminate]. injection E as <- <-. unfold cx_push in E1. destruct (cx_box c); cbn [bind] in E1; [|discriminate]. injection E1 as <-. apply incl_refl.
    - destruct (cx_pop c) as [c1|] eqn:E1; cbn [bind] in E; [|discriminate]. injection E as <- <-. unfold cx_pop in E1.
      destruct (sv_pop (cx_stack c)) as [[? ?]| |]; try discriminate. destruct (sv_pop (cx_boxes c)) as [[? ?]| |]; try discriminate.
      destruct (sat_pop (cx_sat c)) as [s1|] eqn:E2; cbn [bind] in E1; [|discriminate]. injection E1 as <-. cbn [cx_sat]. unfold sat_pop in E2.
      destruct (sm_pop var_eqb (ss_tse (cx_sat c))), (sm_pop Nat.eqb (ss_to_sym (cx_sat c))), (sm_pop var_eqb (ss_to_sat (cx_sat c))), (sv_pop (ss_clauses (cx_sat c))) as [[? ?]| |]; try discriminate.
      injection E2 as <-. apply incl_refl.
    - destruct (cx_check fold pico T mid precision fuel c) as [[r c1]|] eqn:E1; cbn [bind fst snd] in E; [|discriminate]. injection E as <- <-.
      unfold cx_check in E1. destruct (check_core fold pico T fuel c) as [[ob c2]|] eqn:E2; cbn [bind] in E1; [|discriminate].
      assert (X : incl (ss_pa (cx_sat c)) (ss_pa (cx_sat c2))).
      { unfold check_core in E2. destruct (cx_box c) as [b|]; cbn [bind] in E2; [|discriminate]. destruct (b_empty b); [injection E2 as _ <-; apply incl_refl|].
        destruct (existsb is_false _); [injection E2 as _ <-; apply incl_refl|]. destruct (sv_vec (cx_stack c)) as [|f st]; [injection E2 as _ <-; apply incl_refl|].
        destruct (match f :: st with [f0] => is_true f0 | _ => false end); [injection E2 as _ <-; apply incl_refl|].
        destruct (core_loop _ _ _ _ _ _ _ _) as [[[[ob' s'] nx'] t']|] eqn:El; cbn [bind] in E2; [|discriminate]. injection E2 as _ <-. exact (core_pa _ _ _ _ _ _ _ _ _ El). }
      destruct ob as [m|]; [destruct (tighten mid precision m) as [m1|]; cbn [bind] in E1; [|discriminate]|]; injection E1 as <- <-; exact X.
  Qed.
  Lemma run_pa ops : forall c c' a, cx_run fold K pico T mid precision ops c = Some (c', a) -> incl (ss_pa (cx_sat c)) (ss_pa (cx_sat c')).
  Proof.
    induction ops as [|o ops IH]; intros c c' a E; cbn [cx_run] in E; [injection E as <- <-; apply incl_refl|].
    destruct (cx_step fold K pico T mid precision o c) as [[c1 a1]|] eqn:E1; cbn [bind fst snd] in E; [|discriminate].
    destruct (cx_run fold K pico T mid precision ops c1) as [[c2 a2]|] eqn:E2; cbn [bind fst snd] in E; [|discriminate]. injection E as <- <-.
    exact (incl_tran (step_pa _ _ _ _ E1) (IH _ _ _ E2)).
  Qed.
End Grow.
