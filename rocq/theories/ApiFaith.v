(** * Minimize of the library poses the problem of its arguments (C44) *)
From Coq Require Import ZArith Reals Lra Lia List Bool Arith.
From Flocq Require Import IEEE754.BinarySingleNaN.
From Verif Require Import Dbl DblProofs Syntax Sem SemProofs FormulaCons Scoped Interval IEval Filter Contr Icp Theory StdInterp SpecForm PredAbs VarSet VarSetProofs
  ExprAlg SpecAlg ExprAlgProofs SmtOcc SpecIte IteElim Regular Wff Sat Context SpecCtx SpecModel SpecWeak CtxTop WffProofs SpecFaith CtxFaith Minim SpecMin MinimProofs MinFaith Dr DrProofs Api SpecApi ApiProofs.
Import ListNotations.
Local Notation R := Rdefinitions.R.

Lemma problems_fold ops : forall st fuel, (forall k, ~ In (OCheck k) ops) -> problems (ops ++ [OCheck fuel]) st = [fst (fold_left (fun st o => p_step o st) ops st)].
Proof.
  induction ops as [|o ops IH]; intros st fuel H; [reflexivity|]. cbn [app fold_left]. rewrite <- (IH (p_step o st) fuel) by (intros k C; apply (H k); right; exact C).
  destruct o; try reflexivity. exfalso. apply (H fuel0). left. reflexivity.
Qed.
Lemma no_check_declare l k : ~ In (OCheck k) (declare_all l).
Proof. unfold declare_all. intros C. apply in_map_iff in C. destruct C as (v & E & _). discriminate. Qed.
Lemma no_check_min uf rc fpow n fs c mops t k : minimize fpow n fs c = (Val mops, t) -> Forall (exact (std uf rc)) t -> ~ In (OCheck k) mops.
Proof.
  intros E _ C. unfold minimize in E. destruct (cx_box c) as [b|]; [|discriminate E]. apply bind_val in E. destruct E as ([[ys zs] psi] & t1 & t2 & _ & E2 & _). apply ret_val in E2. destruct E2 as [-> _].
  unfold mn_ops in C. rewrite !in_app_iff, in_map_iff, in_flat_map in C. destruct C as [(x & X & _)|[(z & _ & [X|[X|[]]])|[X|[]]]]; discriminate.
Qed.
Theorem api_minimize_problem : forall fold K pico T mid uf rc fpow n g f precision nx fuel r t, let M := std uf rc in rc_ok M ->
  api_minimize fold K pico T mid fpow n g f precision nx fuel = (Val (Some r), t) -> Forall (exact M) t -> fresh_ids (fvF f ++ fvE g) nx ->
  qf_formula f -> ite_exact M stdD fold K f -> hasIteF f = false -> unfolded fold f -> f <> FFalse -> exact_bound f -> api_posed M stdD g f ->
  exists ops c' zs p, cx_run fold K pico (T precision) mid precision (ops ++ [OCheck fuel]) (cx_init nx) = Some (c', [r]) /\ problems (ops ++ [OCheck fuel]) (p_empty, []) = [p] /\
    (forall z, In z zs -> nx <= vid z) /\
    forall rho, (exists rho1, agree_off zs rho rho1 /\ satisfying M p rho1) <->
      api_point M (fvF f ++ fvE g) f rho /\ ~ exists rho', api_point M (fvF f ++ fvE g) f rho' /\ (evalE M g rho' < evalE M g rho)%R.
Proof.
  intros fold K pico T mid uf rc fpow n g f precision nx fuel r t M RC E Ht HF Hq Hi Hni Hu Hff Hx (Of & Og & Dfg).
  destruct (minimize_run _ _ _ _ _ _ _ _ _ _ _ _ _ _ E) as (c & mops & c' & E1 & E2 & E3).
  set (ops := declare_all (fvF f) ++ declare_all (fvE g) ++ [OAssert f]) in *.
  destruct (fresh_app _ _ _ HF) as [Hf Hg].
  assert (Ad : admissible M stdD fold K nx ops [] (p_empty, [])).
  { unfold ops, declare_all. apply declares_adm; [intros v Hv; apply (vs_of_in _ nx Hf) in Hv; now apply Hf|]. intros p1 A1 A2. apply declares_adm; [intros v Hv; apply (vs_of_in _ nx Hg) in Hv; now apply Hg|].
    intros p2 B1 B2. cbn [admissible admissible_q op_ok_q fst]. split; [split; [|exact Hi]|exact I].
    pose proof (proj2 (wf_restrict _ _ (fun v => In v (fvF f))) f Hq (fun v Hv => Hv)) as W.
    refine (proj2 (WffProofs.wf_mono _ _ _ _ _ _ _ _ _) f W); cbn beta; [| |intros v []]; intros v [A B]; (split; [|exact A]); apply B1; left; apply A1; right; apply (vs_of_in _ nx Hf); exact B. }
  assert (De : delta_ops fold ops (p_empty, [])).
  { unfold ops, declare_all. apply declares_delta. intros p1. apply declares_delta. intros p2. cbn [delta_ops delta_op fst]. split; [|exact I]. split; [exact Hni|]. split; [exact Hu|]. intros C. contradiction. }
  assert (Ex : Forall exact_op ops).
  { unfold ops, declare_all. apply Forall_app. split; [apply Forall_forall; intros o Ho; apply in_map_iff in Ho; destruct Ho as (v & <- & _); exact I|].
    apply Forall_app. split; [apply Forall_forall; intros o Ho; apply in_map_iff in Ho; destruct Ho as (v & <- & _); exact I|]. constructor; [exact Hx|constructor]. }
  destruct (minimize_problem_all g f nx HF) as (p & Pp & Ep). fold ops in Ep.
  assert (Ec : current ops = p).
  { specialize (Ep [OCheck 0]). rewrite problems_fold in Ep; [|intros k C; unfold ops in C; rewrite !in_app_iff in C; destruct C as [C|[C|[C|[]]]]; [exact (no_check_declare _ _ C)|exact (no_check_declare _ _ C)|discriminate C]].
    cbn [problems fst p_step] in Ep. unfold current. congruence. }
  destruct Pp as [P1 P2].
  assert (Dc : forall v, declared (current ops) v <-> In v (fvF f ++ fvE g)).
  { intros v. rewrite Ec. unfold declared. rewrite in_map_iff. split; [intros ([w d] & <- & H); apply P1 in H; apply H|]. intros H. exists (v, dom0 (vty v)). split; [reflexivity|]. apply P1. auto. }
  assert (Sp : forall rho, satisfying M (current ops) rho <-> api_point M (fvF f ++ fvE g) f rho).
  { intros rho. rewrite Ec. unfold satisfying, api_point. rewrite P2. split; intros (W & A & B); (split; [exact W|]).
    - split; [|apply B; left; reflexivity]. intros v Hv. apply (A v). apply P1. auto.
    - split; [intros v d Hd; apply P1 in Hd; destruct Hd as [Hd ->]; auto|]. intros h [<-|[]]. exact B. }
  assert (Po : posed_problem M stdD (current ops) [g]).
  { split; [intros v w Hv Hw; apply Dc in Hv, Hw; now apply HF|]. split; [|split].
    - intros h Hh. rewrite Ec, P2 in Hh. destruct Hh as [<-|[]]. apply (proj2 (occ_on _) f _ _ Of). intros v Hv. apply Dc. apply in_or_app. auto.
    - intros h [<-|[]]. apply (proj1 (occ_on _) g _ _ Og). intros v Hv. apply Dc. apply in_or_app. auto.
    - intros rho W Dm. assert (X : forall v, In v (fvF f ++ fvE g) -> dom0 (vty v) (rho v)) by (intros v Hv; apply (Dm v); rewrite Ec; apply P1; auto).
      destruct (Dfg rho W X) as [D1 D2]. split; [intros h Hh; rewrite Ec, P2 in Hh; destruct Hh as [<-|[]]; exact D1|intros h [<-|[]]; exact D2]. }
  exists (ops ++ mops), c', (declared_by mops), (current (ops ++ mops)). split; [rewrite <- app_assoc; exact E3|]. split; [|split].
  - apply problems_fold. intros k C. apply in_app_or in C. destruct C as [C|C]; [|exact (no_check_min uf rc fpow n [g] c mops t k E2 Ht C)].
    unfold ops in C. rewrite !in_app_iff in C. destruct C as [C|[C|[C|[]]]]; [exact (no_check_declare _ _ C)|exact (no_check_declare _ _ C)|discriminate C].
  - destruct (faithful M stdD fold K pico (T precision) mid precision nx RC ops c [] Ad De Ex E1) as (b & Eb & F & Sm). intros z Hz.
    unfold minimize in E2. rewrite Eb in E2. apply bind_val in E2. destruct E2 as ([[ys zs] psi] & t1 & t2 & E2 & E4 & ->). apply ret_val in E4. destruct E4 as [-> ->]. rewrite app_nil_r in Ht. rewrite mn_declared in Hz.
    destruct (plan_zs uf rc fpow n [g] _ b _ ys zs psi t1 E2 Ht z Hz) as [_ L].
    destruct (hist_run M stdD fold K pico (T precision) mid precision nx RC ops _ _ _ _ _ _ _ _ (hist_init M nx) Ad De Ex E1) as (b1 & sv & nw & ps & H). pose proof (hi_n _ _ _ _ _ _ _ _ H). lia.
  - intros rho. eapply iff_trans; [exact (minimize_problem uf rc fpow n fold K pico (T precision) mid precision nx RC ops c [] Ad De Ex E1 [g] mops t E2 Ht Po rho)|]. fold M. rewrite Sp. unfold optimal. split; intros [A B]; (split; [exact A|]); intros (r' & H1 & H2); apply B; exists r'.
    + split; [apply Sp; exact H1|]. intros h [<-|[]]. exact H2.
    + split; [apply Sp; exact H1|]. exact (H2 g (or_introl eq_refl)).
Qed.
