(** A concrete, sound interval arithmetic, and boxes on which the evaluators give each verdict. *)
From Coq Require Import ZArith Reals Lra Lia List Bool.
From Flocq Require Import Core.Core IEEE754.BinarySingleNaN.
From Verif Require Import Dbl DblProofs Syntax Sem Interval IntervalProofs MathConv MathConvProofs IEval IEvalProofs StdInterp ExamplesForm ExamplesBox.
Import ListNotations.
Local Open Scope R_scope.

Lemma Mstd_rc : rc_ok Mstd.
Proof.
  intros l u Fl Fu H. apply dle_true in H. rewrite (finite_d2e _ Fl), (finite_d2e _ Fu) in *. cbn in *. lra.
Qed.

(** Outward-rounded addition and scaling; every other operation returns (-oo, +oo). *)
Definition lo_of (x : dbl) := if is_finite x then Bpred x else dninf.
Definition hi_of (x : dbl) := if is_finite x then Bsucc x else dpinf.
Definition lin_add (I J : ival) : ival :=
  match I, J with
  | IV l u, IV l' u' =>
      if is_finite l && is_finite u && is_finite l' && is_finite u' then mk_ival (lo_of (dadd l l')) (hi_of (dadd u u')) else i_all
  | _, _ => i_all
  end.
Definition lin_scale (I : ival) (c : dbl) : ival :=
  match I with
  | IV l u => if is_finite l && is_finite u && is_finite c then
                if dle dzero c then mk_ival (lo_of (dmul c l)) (hi_of (dmul c u))
                else mk_ival (lo_of (dmul c u)) (hi_of (dmul c l))
              else i_all
  | _ => i_all
  end.
Definition lin : iarith :=
  {| ia_add := lin_add; ia_mul := fun _ _ => i_all; ia_scale := lin_scale; ia_div := fun _ _ => i_all; ia_un := fun _ _ => i_all;
     ia_sqr := fun _ => i_all; ia_powi := fun _ _ => i_all; ia_powd := fun _ _ => i_all; ia_powI := fun _ _ => i_all;
     ia_atan2 := fun _ _ => i_all; ia_min := fun _ _ => i_all; ia_max := fun _ _ => i_all |}.

Lemma Bpred_nan x : is_finite x = true -> is_nan (Bpred x) = false.
Proof. intros F. pose proof (Bpred_lt x F) as H. destruct (Bpred x) eqn:E; auto. 
  generalize (Bpred_correct prec64 emax64 _ _ x F). rewrite E. destruct (Rlt_bool _ _); [intros (_ & X & _); discriminate|discriminate]. Qed.
Lemma Bsucc_nan x : is_finite x = true -> is_nan (Bsucc x) = false.
Proof. intros F. destruct (Bsucc x) eqn:E; auto. 
  generalize (Bsucc_correct prec64 emax64 _ _ x F). rewrite E. destruct (Rlt_bool _ _); [intros (_ & X & _); discriminate|discriminate]. Qed.
Lemma lo_of_le x y : (is_finite x = true -> B2R x = round radix2 (SpecFloat.fexp prec64 emax64) ZnearestE y) ->
  is_nan (lo_of x) = false /\ ext_le (d2e (lo_of x)) (Fin y).
Proof.
  intros H. unfold lo_of. destruct (is_finite x) eqn:F; [|cbn; auto]. split; [apply Bpred_nan; auto|].
  generalize (Bpred_correct prec64 emax64 _ _ x F). destruct (Rlt_bool _ _).
  - intros (E & F' & _). rewrite (finite_d2e _ F'), E. cbn [ext_le]. rewrite H by auto. apply pred_round_le_id; auto with typeclass_instances.
    apply fexp_correct; auto with typeclass_instances.
  - intros E. destruct (Bpred x) as [|[]| |]; try discriminate. cbn. auto.
Qed.
Lemma hi_of_ge x y : (is_finite x = true -> B2R x = round radix2 (SpecFloat.fexp prec64 emax64) ZnearestE y) ->
  is_nan (hi_of x) = false /\ ext_le (Fin y) (d2e (hi_of x)).
Proof.
  intros H. unfold hi_of. destruct (is_finite x) eqn:F; [|cbn; auto]. split; [apply Bsucc_nan; auto|].
  generalize (Bsucc_correct prec64 emax64 _ _ x F). destruct (Rlt_bool _ _).
  - intros (E & F' & _). rewrite (finite_d2e _ F'), E. cbn [ext_le]. rewrite H by auto. apply succ_round_ge_id; auto with typeclass_instances.
    apply fexp_correct; auto with typeclass_instances.
  - intros E. destruct (Bsucc x) as [|[]| |]; try discriminate. cbn. auto.
Qed.
Lemma dadd_fin_R x y : is_finite x = true -> is_finite y = true -> is_finite (dadd x y) = true ->
  B2R (dadd x y) = round radix2 (SpecFloat.fexp prec64 emax64) ZnearestE (B2R x + B2R y).
Proof.
  intros Fx Fy F. unfold dadd in *. pose proof (Bplus_correct prec64 emax64 _ _ mode_NE x y Fx Fy) as C. destruct (Rlt_bool _ _); [apply C|].
  destruct C as [C _]. destruct (Bplus mode_NE x y); try discriminate.
Qed.
Lemma dmul_fin_R x y : is_finite x = true -> is_finite y = true -> is_finite (dmul x y) = true ->
  B2R (dmul x y) = round radix2 (SpecFloat.fexp prec64 emax64) ZnearestE (B2R x * B2R y).
Proof.
  intros Fx Fy F. unfold dmul in *. pose proof (Bmult_correct prec64 emax64 _ _ mode_NE x y) as C. destruct (Rlt_bool _ _); [apply C|].
  destruct (Bmult mode_NE x y); try discriminate.
Qed.
Lemma hull_mem l u a b x : is_nan l = false -> is_nan u = false -> ext_le (d2e l) (Fin a) -> ext_le (Fin b) (d2e u) -> a <= x <= b -> imem x (mk_ival l u).
Proof.
  intros N1 N2 H1 H2 Hx. apply mk_ival_mem; auto. split.
  - eapply ext_le_trans; [exact H1|]. cbn; lra.
  - eapply ext_le_trans; [|exact H2]. cbn; lra.
Qed.

Lemma lin_ok : ia_ok Mstd stdD lin.
Proof.
  constructor; cbn [lin ia_add ia_mul ia_scale ia_div ia_un ia_sqr ia_powi ia_powd ia_powI ia_atan2 ia_min ia_max]; intros; try (apply i_all_mem).
  - destruct I as [|l u]; [contradiction|]. destruct J as [|l' u']; [contradiction|]. cbn [lin_add].
    destruct (is_finite l && is_finite u && is_finite l' && is_finite u') eqn:E; [|apply i_all_mem].
    apply andb_true_iff in E. destruct E as [E F4]. apply andb_true_iff in E. destruct E as [E F3]. apply andb_true_iff in E. destruct E as [F1 F2].
    cbn [imem] in *. rewrite (finite_d2e _ F1), (finite_d2e _ F2) in H. rewrite (finite_d2e _ F3), (finite_d2e _ F4) in H0. cbn [ext_le] in *.
    destruct (lo_of_le (dadd l l') (B2R l + B2R l')) as [A B]; [intros; apply dadd_fin_R; auto|].
    destruct (hi_of_ge (dadd u u') (B2R u + B2R u')) as [C D]; [intros; apply dadd_fin_R; auto|].
    eapply hull_mem; eauto. lra.
  - destruct I as [|l u]; [contradiction|]. cbn [lin_scale].
    destruct (is_finite l && is_finite u && is_finite c) eqn:E; [|apply i_all_mem].
    apply andb_true_iff in E. destruct E as [E F3]. apply andb_true_iff in E. destruct E as [F1 F2].
    cbn [imem] in *. rewrite (finite_d2e _ F1), (finite_d2e _ F2) in H0. cbn [ext_le] in *.
    destruct (lo_of_le (dmul c l) (B2R c * B2R l)) as [A1 B1]; [intros; apply dmul_fin_R; auto|].
    destruct (hi_of_ge (dmul c u) (B2R c * B2R u)) as [C1 D1]; [intros; apply dmul_fin_R; auto|].
    destruct (lo_of_le (dmul c u) (B2R c * B2R u)) as [A2 B2]; [intros; apply dmul_fin_R; auto|].
    destruct (hi_of_ge (dmul c l) (B2R c * B2R l)) as [C2 D2]; [intros; apply dmul_fin_R; auto|].
    destruct (dle dzero c) eqn:Ec.
    + apply dle_true in Ec. rewrite (finite_d2e _ H) in Ec. cbn [dzero d2e ext_le B2R] in Ec. eapply hull_mem; eauto. nra.
    + assert (B2R c < 0). { apply dle_false in Ec; [|reflexivity|apply fin_nan; auto]. rewrite (finite_d2e _ H) in Ec. apply ext_lt_fin in Ec. exact Ec. }
      eapply hull_mem; eauto. nra.
  - assert (Ha : i_ok i_all) by (vm_compute; auto). repeat split; try apply Ha.
    + destruct I, J; cbn [lin_add]; auto. destruct (_ && _); auto. apply mk_ival_ok.
    + destruct I; cbn [lin_scale]; auto. destruct (_ && _); auto. destruct (dle _ _); apply mk_ival_ok.
Qed.

(** A subtraction that simplifies nothing. *)
Definition plain_sub (a b : expr) : expr := EAdd dzero [(a, dZ 1); (b, dZ (-1))].
Lemma mone_R : B2R (dZ (-1)) = -1. Proof. unfold dZ, mkd. cbn. unfold F2R; simpl. lra. Qed.
Lemma plain_sub_ok M D a b : finE a -> finE b -> esub_faithful M D plain_sub a b.
Proof.
  intros Fa Fb. split; [|split].
  - cbn [finE plain_sub fold_right]. repeat split; auto.
  - cbn [fvE plain_sub flat_map]. intros v. rewrite app_nil_r. auto.
  - intros rho Da Db. split.
    + cbn [defE plain_sub fold_right]. auto.
    + cbn [evalE plain_sub fold_right]. rewrite one_R, mone_R. cbn [dzero B2R]. lra.
Qed.

(** x in [0,4] and n in [-3,8]: x + n > -4 is valid, x + n > 13 unsatisfiable, x > n undecided. *)
Definition lit_valid : formula := FRel RGt (EAdd dzero [(ex_x, dZ 1); (EVar vi, dZ 1)]) (EConst (dZ (-4))).
Definition lit_unsat : formula := FRel RGt (EAdd dzero [(ex_x, dZ 1); (EVar vi, dZ 1)]) (EConst (dZ 13)).
Definition lit_unknown : formula := FNot (FRel RLeq ex_x (EVar vi)).
Definition verdict (f : formula) (b : box) : option etype := option_map fst (rel_eval lin plain_sub f b).
Example verdicts : verdict lit_valid exb = Some VALID /\ verdict lit_unsat exb = Some UNSAT /\ verdict lit_unknown exb = Some UNKNOWN.
Proof. vm_compute. auto. Qed.
Lemma lit_hyp f : In f [lit_valid; lit_unsat; lit_unknown] ->
  (forall v, In v (fvF f) -> In v (bvars exb)) /\
  (forall e1 e2, lit_sides f = Some (e1, e2) -> esub_faithful Mstd stdD plain_sub e1 e2) /\
  (forall rho, defF Mstd stdD f rho).
Proof.
  intros H. cbn [In] in H. repeat destruct H as [<-|H]; try contradiction; (split; [intros v Hv; simpl in Hv; simpl; intuition congruence|split; [|intros rho; cbn; auto]]);
  intros e1 e2 [= <- <-]; apply plain_sub_ok; cbn [finE fold_right ex_x]; repeat split; auto.
Qed.
(** Narrow boxes give UNKNOWN with a narrow enclosure. *)
Definition exn : box := mkBox [vx; vy] [IV (dZ 1) (dadd (dZ 1) (mkd 1 (-20))); IV (dZ 1) (dadd (dZ 1) (mkd 1 (-20)))].
Example narrow : match rel_eval lin plain_sub (FRel RLeq ex_x ex_y) exn with
  | Some (UNKNOWN, i) => negb (dgt (i_diam i) (mkd 1 (-10))) | _ => false end = true.
Proof. vm_compute. reflexivity. Qed.
