(** Delta-sat answers: a history meeting the hypotheses of C02, and answers that break the unrestricted claim. *)
From Coq Require Import ZArith Reals Lra Lia List Bool Arith.
From Flocq Require Import Core.Core IEEE754.BinarySingleNaN.
From Verif Require Import Dbl DblProofs Syntax Sem SemProofs Interval IntervalProofs MathConv MathConvProofs SpecForm FormulaCons Nnf
  IEval StdInterp Contr Icp Theory Wff Scoped PredAbs IteElim SpecIte Sat Context SpecCtx CtxTop SpecModel SpecWeak ExamplesForm ExamplesBox ExamplesIcp ExamplesIte ExamplesCtx ExamplesModel.
Import ListNotations.
Definition low (k : Z) : dbl := mkd (- 9007199254740992 + k) 17.
Lemma quarter_R : B2R quarter = (1 / 4)%R.
Proof. unfold quarter, mkd. cbn. unfold F2R. cbn. lra. Qed.
Lemma low_R0 : is_finite (low 0) = true /\ B2R (low 0) = (-9007199254740992 * 131072)%R.
Proof. split; [vm_compute; reflexivity|]. unfold low, mkd. cbn. unfold F2R. cbn. lra. Qed.
Lemma low_R1 : is_finite (low 1) = true /\ B2R (low 1) = (-9007199254740991 * 131072)%R.
Proof. split; [vm_compute; reflexivity|]. unfold low, mkd. cbn. unfold F2R. cbn. lra. Qed.
#[local] Opaque dZ mkd.

Lemma unf_any f : unfolded nofold f.
Proof. exact (no_fold_unfolded f). Qed.
Lemma ops1_delta : delta_ops nofold ops1 (p_empty, []).
Proof.
  unfold ops1, xn, ex_x. cbn [delta_ops delta_op p_step fst snd]. repeat split; try apply unf_any; try discriminate.
Qed.

(** A point of the reported box that breaks the delta-weakening of an assertion. *)
Definition breaks (precision : dbl) (ops : list cop) (f : formula) (rho : env) : Prop :=
  exists c m, run_p precision ops = Some (c, [Some m]) /\ In (OAssert f) ops /\ (forall v, In v (fvF f) -> In v (bvars m) /\ imem (rho v) (b_getv m v)) /\ ~ weak Mstd (B2R precision) true f rho.
Definition obs (v : var) (c : dbl) (r : option (ctx * list (option box))) : bool :=
  match r with Some (_, [Some m]) => mem_var v (bvars m) && match b_getv m v with IV l u => dle l c && dle c u | IEmpty => false end | _ => false end.
Lemma obs_point v c r : obs v c r = true -> is_finite c = true -> exists k m, r = Some (k, [Some m]) /\ In v (bvars m) /\ imem (B2R c) (b_getv m v).
Proof.
  unfold obs. destruct r as [[k [|[m|] [|? ?]]]|]; try discriminate. intros H F. apply andb_true_iff in H. destruct H as [H1 H2]. exists k, m. split; [reflexivity|]. split; [apply mem_var_In; exact H1|].
  destruct (b_getv m v) as [|l u]; [discriminate|]. apply andb_true_iff in H2. destruct H2 as [A B]. apply dle_true in A, B. rewrite (finite_d2e c F) in A, B. split; assumption.
Qed.
Lemma breaks_at precision ops v e o c : let f := FRel o (EVar v) (EConst e) in
  obs v c (run_p precision ops) = true -> is_finite c = true -> In (OAssert f) ops -> is_finite e = true ->
  ~ weakR (B2R precision) o (B2R c) (B2R e) -> breaks precision ops f (fun _ => B2R c).
Proof.
  intros f H F Hin Fe N. destruct (obs_point v c _ H F) as (k & m & E & H1 & H2). exists k, m. split; [exact E|]. split; [exact Hin|]. split.
  - intros w Hw. cbn in Hw. destruct Hw as [<-|[]]. auto.
  - exact N.
Qed.

(** n integer in [0,10], n >= 1/2 and n <= 5/4, precision 1/4: n = 0 is reported. *)
Definition ops_halves : list cop := [ODeclareDom vi (dZ 0) (dZ 10) true; OAssert (FRel RGeq (EVar vi) (EConst (mkd 1 (-1)))); OAssert (FRel RLeq (EVar vi) (EConst (mkd 5 (-2)))); OCheck 20].
Example halves_runs : obs vi (dZ 0) (run_p quarter ops_halves) = true.
Proof. vm_compute. reflexivity. Qed.
(** x <= 3, then the domain of x is set to [5,10]. *)
Definition ops_reset : list cop := [ODeclareDom vx (dZ 0) (dZ 10) true; OAssert (xc RLeq 3); OSetInterval vx (dZ 5) (dZ 10); OCheck 20].
Example reset_runs : obs vx (dZ 7) (run_p three_half ops_reset) = true.
Proof. vm_compute. reflexivity. Qed.
(** x < -2^70 and x >= -2^70 + 2^17. *)
Definition ops_low : list cop := [ODeclareDom vx (low (-10)) (dZ 0) true; OAssert (FRel RLt (EVar vx) (EConst (low 0))); OAssert (FRel RGeq (EVar vx) (EConst (low 1))); OCheck 20].
Example low_runs : obs vx (low 1) (run_p quarter ops_low) = true.
Proof. vm_compute. reflexivity. Qed.
(** false is asserted before any variable is declared. *)
Definition ops_false : list cop := [OAssert FFalse; ODeclare vi true; OCheck 20].
Example false_runs : verdicts (run_p quarter ops_false) = Some [true].
Proof. vm_compute. reflexivity. Qed.

Lemma halves_wrong : exists f rho, breaks quarter ops_halves f rho.
Proof.
  exists (FRel RGeq (EVar vi) (EConst (mkd 1 (-1)))), (fun _ => B2R (dZ 0)). apply breaks_at; [exact halves_runs|apply dZ_fin; lia|right; left; reflexivity|reflexivity|].
  cbn [weakR]. rewrite mkd_half, dZ_R by lia. rewrite quarter_R. lra.
Qed.
Lemma reset_wrong : exists f rho, breaks three_half ops_reset f rho.
Proof.
  exists (xc RLeq 3), (fun _ => B2R (dZ 7)). apply breaks_at; [exact reset_runs|apply dZ_fin; lia|right; left; reflexivity|apply dZ_fin; lia|].
  cbn [weakR]. rewrite !dZ_R by lia. assert (X : B2R three_half = (3 / 2)%R) by exact mkd_three. rewrite X. lra.
Qed.
Lemma low_wrong : exists f rho, breaks quarter ops_low f rho.
Proof.
  exists (FRel RLt (EVar vx) (EConst (low 0))), (fun _ => B2R (low 1)). apply breaks_at; [exact low_runs|exact (proj1 low_R1)|right; left; reflexivity|exact (proj1 low_R0)|].
  cbn [weakR]. rewrite (proj2 low_R0), (proj2 low_R1), quarter_R. lra.
Qed.
Lemma false_wrong : exists c m, run_p quarter ops_false = Some (c, [Some m]) /\ In (OAssert FFalse) ops_false.
Proof.
  pose proof false_runs as H. unfold verdicts in H. destruct (run_p quarter ops_false) as [[c a]|]; [|discriminate]. cbn [option_map snd] in H. destruct a as [|[m|] [|? ?]]; try discriminate. exists c, m. split; [reflexivity|left; reflexivity].
Qed.
