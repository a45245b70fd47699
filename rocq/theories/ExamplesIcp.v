(** Runs of the sequential and the parallel search, with components meeting the hypotheses. *)
From Coq Require Import ZArith Reals Lra Lia List Bool.
From Flocq Require Import Core.Core IEEE754.BinarySingleNaN.
From Verif Require Import Dbl DblProofs Syntax Sem SemProofs Interval IntervalProofs MathConv MathConvProofs SpecForm FormulaCons Nnf
  IEval IEvalProofs StdInterp Contr ContrProofs IbexConv IbexConvProofs ContrTop Icp IcpProofs IcpTop IcpPar IcpParProofs IcpParTop ExamplesForm ExamplesBox ExamplesEval ExamplesContr.
Import ListNotations.
Local Open Scope R_scope.
#[local] Opaque dZ mkd.

(** x in [0,4] real, n in [-3,8] integer: x <= 3, n >= 2.5 and x + n >= 6 / x + n between 8 and 7 *)
Definition xn : expr := EAdd dzero [(ex_x, dZ 1); (EVar vi, dZ 1)].
Definition fs_sat : list formula := [f_le3; f_ge25; FRel RGeq xn (EConst (dZ 6))].
Definition fs_unsat : list formula := [f_le3; FRel RGeq xn (EConst (dZ 8)); FRel RLeq xn (EConst (dZ 7))].
Definition icp_c (fs : list formula) : contractor := mk_fix (map CFwd fs ++ [mk_integer exb]).
Definition icp_pr (fs : list formula) : cstat -> option cstat := prune lib_orc default_term 20 (icp_c fs).
Definition icp_ev : formula -> box -> option (etype * ival) := rel_eval lin plain_sub.
Definition half : dbl := mkd 1 (-1).
Definition ex_seq (fs : list formula) : option (bool * cstat) :=
  icp_seq (icp_pr fs) icp_ev (branch_largest ibex_mid) half 2000 fs true (cs_new exb None).
Definition answer (r : option (bool * cstat)) : option bool := option_map fst r.
Example seq_answers : answer (ex_seq fs_sat) = Some true /\ answer (ex_seq fs_unsat) = Some false.
Proof. vm_compute. auto. Qed.
(** Two workers under a round-robin schedule, three under a lop-sided one. *)
Definition robin (k n : nat) : list nat := concat (repeat (seq 0 k) n).
Definition ex_par (fs : list formula) (jobs : nat) (sched : list nat) : option (bool * cstat) :=
  icp_par (icp_pr fs) icp_ev ibex_mid half fs true jobs sched (cs_new exb None).
Example par_answers : answer (ex_par fs_sat 2 (robin 2 200)) = Some true /\ answer (ex_par fs_unsat 2 (robin 2 2000)) = Some false /\
  answer (ex_par fs_unsat 3 (repeat 2%nat 3000 ++ robin 3 1000)) = Some false.
Proof. vm_compute. auto. Qed.
(** The counter during an exhaustive run of two workers: (counter, queued boxes, boxes held). *)
Definition ex_counts (sched : list nat) : option (Z * nat * nat) :=
  option_map (fun st => (p_count st, length (p_stack st), list_sum (map held (p_ws st))))
    (par_run (icp_pr fs_unsat) icp_ev ibex_mid half fs_unsat sched (par_init true 2 (cs_new exb None))).
Lemma ex_counts_run : ex_counts [] = Some (1%Z, 1%nat, 0%nat) /\ ex_counts (robin 2 5) = Some (2%Z, 0%nat, 2%nat) /\ ex_counts (robin 2 15) = Some (4%Z, 1%nat, 3%nat) /\
  ex_counts (robin 2 25) = Some (4%Z, 3%nat, 1%nat) /\ ex_counts (robin 2 50) = Some (0%Z, 0%nat, 0%nat).
Proof. vm_compute. auto. Qed.

Example conv_all : forallb conv_ok (fs_sat ++ fs_unsat) = true.
Proof. vm_compute. reflexivity. Qed.
Lemma fs_lits f : In f (fs_sat ++ fs_unsat) ->
  (forall v, In v (fvF f) -> In v (bvars exb)) /\
  (forall e1 e2, lit_sides f = Some (e1, e2) -> esub_faithful Mstd stdD plain_sub e1 e2) /\
  exists c, ibex_convert plain_sub plain_neg (bvars exb) 10 f = COk (Some c).
Proof.
  assert (F1 : finE xn) by (cbn [finE xn fold_right ex_x]; repeat split; auto).
  intros H. split; [|split].
  - intros v Hv. cbn [fs_sat fs_unsat app In] in H. repeat destruct H as [<-|H]; try contradiction; simpl in Hv; simpl; intuition congruence.
  - cbn [fs_sat fs_unsat app In] in H. repeat destruct H as [<-|H]; try contradiction; intros e1 e2 [= <- <-]; apply plain_sub_ok; first [exact I|exact F1|vm_compute; reflexivity].
  - pose proof (proj1 (forallb_forall conv_ok _) conv_all f H) as C. unfold conv_ok in C. change (bvars exb) with [vx; vi].
    destruct (ibex_convert plain_sub plain_neg [vx; vi] 10 f) as [[c|]| | |]; try discriminate. exists c. reflexivity.
Qed.
Lemma icp_hyps fs : incl fs (fs_sat ++ fs_unsat) ->
  pruner_sound Mstd stdD fs (icp_pr fs) (bvars exb) /\ (forall f, In f fs -> evaluator_sound Mstd stdD icp_ev f (bvars exb)).
Proof.
  intros HI. split.
  - assert (F : Forall (c_ok Mstd stdD lib_orc (bvars exb)) (map CFwd fs ++ [mk_integer exb])).
    { apply Forall_app. split; [|constructor; [apply mk_integer_ok|constructor]]. apply Forall_forall. intros c Hc. apply in_map_iff in Hc.
      destruct Hc as (f & <- & Hf). destruct (fs_lits f (HI f Hf)) as (A & B & c & C). cbn [c_ok]. split; [|exact A].
      apply (fwd_from_ibex Mstd stdD lib plain_sub plain_neg 10 (fun _ _ => None) lib_ok (plain_neg_ok _ _) (std_sqrt_ok _ _) f c); auto. }
    assert (F' : Forall (fun c => forall rho, (forall f, In f fs -> solves Mstd stdD f rho) -> c_sem Mstd stdD c rho) (map CFwd fs ++ [mk_integer exb])).
    { apply Forall_app. split; [|constructor; [|constructor]].
      - apply Forall_forall. intros c Hc. apply in_map_iff in Hc. destruct Hc as (f & <- & Hf). intros rho H. cbn [c_sem]. auto.
      - intros rho _. unfold mk_integer. destruct (existsb _ _); exact I. }
    assert (Fl : c_flatten (map CFwd fs ++ [mk_integer exb]) = map CFwd fs ++ [mk_integer exb]).
    { unfold c_flatten. rewrite flat_map_app. f_equal. clear. induction fs; cbn [map flat_map app]; [auto|f_equal; auto]. }
    apply pruner_of; unfold icp_c, mk_fix; rewrite Fl.
    + destruct (map CFwd fs ++ [mk_integer exb]) eqn:E; [exact I|]. cbn [c_ok]. apply cok_list. exact F.
    + intros rho H. destruct (map CFwd fs ++ [mk_integer exb]) eqn:E; [exact I|]. cbn [c_sem]. apply (csem_seq Mstd stdD). rewrite Forall_forall in *. auto.
  - intros f Hf. destruct (fs_lits f (HI f Hf)) as (A & B & _). apply evaluator_of; auto; [apply lin_ok|apply Mstd_rc].
Qed.
Lemma exb_range : int_range exb.
Proof.
  intros [|[|i]] v x E T H; cbn [nth_error exb bvars] in E; [|injection E as <-|destruct i; discriminate].
  - injection E as <-. discriminate.
  - cbn [exb b_get bvals nth imem] in H. assert (E1 : d2e (dZ (-3)) = Fin (-3)) by (destruct (dZ_exact (-3)) as [F G]; [lia|]; rewrite (finite_d2e _ F), G; reflexivity).
    assert (E2 : d2e (dZ 8) = Fin 8) by (destruct (dZ_exact 8) as [F G]; [lia|]; rewrite (finite_d2e _ F), G; reflexivity).
    rewrite E1, E2 in H. cbn [ext_le] in H. apply Rabs_le. lra.
Qed.
