(** The parallel search is sound for sound components; both searches over the components of the model. *)
From Coq Require Import ZArith Reals Lra Lia List Bool.
From Flocq Require Import Core.Core IEEE754.BinarySingleNaN.
From Verif Require Import Dbl DblProofs Syntax Sem SemProofs Interval IntervalProofs MathConv MathConvProofs IEval IEvalProofs Contr ContrProofs ContrTop Icp IcpProofs IcpTop IcpPar IcpParProofs.
Import ListNotations.

Section Top.
  Variables (M : interp) (D : pdom) (pr : cstat -> option cstat) (ev : formula -> box -> option (etype * ival)).
  Variables (mid : dbl -> dbl -> dbl) (precision : dbl) (fs : list formula).
  Notation brancher := (branch_largest mid).

  Theorem icp_par_sound lf jobs sched s r s' : mid_ok mid -> jobs <> 0 -> box_ok (cs_box s) -> int_range (cs_box s) ->
    pruner_sound M D fs pr (bvars (cs_box s)) ->
    (forall f, In f fs -> evaluator_sound M D ev f (bvars (cs_box s))) ->
    icp_par pr ev mid precision fs lf jobs sched s = Some (r, s') ->
    (r = false -> b_empty (cs_box s') = true /\ forall rho, well_typed rho -> in_box rho (cs_box s) -> ~ forall f, In f fs -> solves M D f rho) /\
    (r = true -> box_ok (cs_box s') /\ box_sub (cs_box s') (cs_box s) /\ exists t, cs_box t = cs_box s' /\ accepted ev brancher precision fs t).
  Proof.
    intros Hm J K HR Hp He E. pose proof (branch_largest_sound mid Hm) as Hb.
    assert (Kp : forall t t', okb (cs_box s) (cs_box t) -> pr t = Some t' -> okb (cs_box s) (cs_box t')).
    { intros t t' [A B] Et. destruct (Hp t t' A (proj1 B) Et) as (X & Y & Z). split; auto. eapply box_sub_trans; eauto. }
    assert (Kb : forall b act d l r, okb (cs_box s) b -> brancher b act = Some (Some (d, l, r)) -> okb (cs_box s) l /\ okb (cs_box s) r).
    { intros b act d l r0 [A B] Er. destruct (Hb b act d l r0 A (int_range_sub _ _ B HR) Er) as (X1 & X2 & X3 & X4 & _).
      split; split; auto; eapply box_sub_trans; eauto. }
    assert (K0 : okb (cs_box s) (cs_box s)) by (split; auto; apply box_sub_refl).
    split; intros ->.
    - split; [eapply par_false_empty; exact E|]. intros rho W HB HS.
      eapply (par_good pr ev mid precision fs (okb (cs_box s)) (in_box rho) (in_box rho) (fun _ => True)); try exact E; eauto; try tauto.
      + intros t t' [A B] Gt Et _. destruct (Hp t t' A (proj1 B) Et) as (X & Y & Z). specialize (Z rho W Gt HS). split; auto. apply Z.
      + intros t f i Hf [A B] Gt Et _. apply (He f Hf (cs_box t) i rho); auto. apply (proj1 B).
      + intros b act d l r [A B] Gt Er. destruct (Hb b act d l r A (int_range_sub _ _ B HR) Er) as (_ & _ & _ & _ & X). auto.
    - destruct (par_accept pr ev mid precision fs (okb (cs_box s)) Kp Kb lf jobs sched s s' K0 E) as ([A B] & C). auto.
  Qed.
End Top.

(** Contractors and relational evaluators are sound components. *)
Lemma pruner_of M D Orc term m c fs vars : c_ok M D Orc vars c ->
  (forall rho, (forall f, In f fs -> solves M D f rho) -> c_sem M D c rho) -> pruner_sound M D fs (prune Orc term m c) vars.
Proof.
  intros Hc Hs s s' K Ev E. subst vars. destruct (prune_top M D Orc term m c s s' K Hc E) as (A & B & C & F).
  split; auto. split; [split; auto|]. intros rho W HB HS. apply F; auto.
Qed.
Lemma evaluator_of M D A esub f vars : ia_ok M D A -> rc_ok M -> (forall v, In v (fvF f) -> In v vars) ->
  (forall e1 e2, lit_sides f = Some (e1, e2) -> esub_faithful M D esub e1 e2) -> evaluator_sound M D (rel_eval A esub) f vars.
Proof.
  intros HA HM HV HE b i rho K Ev E W HB [Df Hf]. subst vars. destruct (rel_eval_sound M D A esub HA HM f b UNSAT i K HV HE E) as [_ X].
  destruct (X rho HB Df) as (_ & Y & _). apply Y; auto.
Qed.
Lemma reachable_counted pr ev mid precision fs lf jobs s sched st : par_run pr ev mid precision fs sched (par_init lf jobs s) = Some st ->
  p_count st = Z.of_nat (length (p_stack st) + list_sum (map held (p_ws st))).
Proof. intros E. apply (run_counted pr ev mid precision fs sched _ _ (init_counted lf jobs s) E). Qed.
Lemma reachable_exhausted pr ev mid precision fs lf jobs s sched st : par_run pr ev mid precision fs sched (par_init lf jobs s) = Some st ->
  (0 <= p_count st)%Z /\ ((p_count st <= 0)%Z -> p_stack st = [] /\ forall w, In w (p_ws st) -> held w = 0%nat).
Proof.
  intros E. pose proof (run_counted pr ev mid precision fs sched _ _ (init_counted lf jobs s) E) as C. split.
  - rewrite (proj1 C). lia.
  - intros H. destruct (exhausted_nothing_left st C H) as (_ & A & B). split; auto. apply Forall_forall. exact B.
Qed.
