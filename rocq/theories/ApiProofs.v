(** Proofs about the library interface (C44). *)
From Coq Require Import ZArith Reals Lra Lia List Bool Sorted.
From Flocq Require Import IEEE754.BinarySingleNaN.
From Verif Require Import Dbl Syntax Sem SemProofs FormulaCons Interval IEval StdInterp VarSet VarSetProofs ExprAlg SpecAlg ExprAlgProofs Contr Icp Theory Regular Wff IteElim SpecIte Sat Scoped Context SpecCtx SpecModel PredAbs SpecForm SpecWeak CtxTop WffProofs
  Minim SpecMin MinimProofs Dr DrProofs Api SpecApi.
Import ListNotations.
Local Notation R := Rdefinitions.R.

Section Wfv.
  Variables (q pv A : var -> Prop).
  Lemma wf_restrict : (forall e, wfE q pv (fun _ => False) e -> (forall v, In v (fvE e) -> A v) -> wfE (fun v => q v /\ A v) (fun v => pv v /\ A v) (fun _ => False) e) /\
    (forall f, wfF q pv (fun _ => False) f -> (forall v, In v (fvF f) -> A v) -> wfF (fun v => q v /\ A v) (fun v => pv v /\ A v) (fun _ => False) f).
  Proof.
    apply expr_formula_ind2; try (cbn [wfE wfF fvE fvF]; intros; auto; fail).
    - intros v H HA. cbn in *. auto.
    - intros c ts IH [Hc H] HA. cbn [wfE fvE] in *. split; [exact Hc|]. clear Hc. induction ts as [|[a k] ts IHt]; [exact I|]. cbn [fold_right] in *.
      inversion IH as [|? ? Ha IHl]; subst. destruct H as [[H1 H2] H3]. split; [split; [apply Ha; auto; intros; apply HA; cbn; rewrite in_app_iff; auto|exact H2]|].
      apply IHt; auto. intros v Hv. apply HA. cbn. rewrite in_app_iff. auto.
    - intros c ts IH [Hc H] HA. cbn [wfE fvE] in *. split; [exact Hc|]. clear Hc. induction ts as [|[a k] ts IHt]; [exact I|]. cbn [fold_right] in *.
      inversion IH as [|? ? [Ha Hk] IHl]; subst. destruct H as [[H1 H2] H3]. split; [split; [apply Ha|apply Hk]; auto; intros; apply HA; cbn; rewrite ?in_app_iff; auto|].
      apply IHt; auto. intros v Hv. apply HA. cbn. rewrite ?in_app_iff. auto.
    - intros o a b Ha Hb [H1 H2] HA. cbn [wfE fvE] in *. split; [apply Ha|apply Hb]; auto; intros; apply HA; rewrite in_app_iff; auto.
    - intros f a b Hf Ha Hb (H0 & H1 & H2) HA. cbn [wfE fvE] in *. split; [apply Hf|split; [apply Ha|apply Hb]]; auto; intros; apply HA; rewrite !in_app_iff; auto.
    - intros v H HA. cbn in *. auto.
    - intros o a b Ha Hb [H1 H2] HA. cbn [wfF fvF] in *. split; [apply Ha|apply Hb]; auto; intros; apply HA; rewrite in_app_iff; auto.
    - intros fs IH H HA. cbn [wfF fvF] in *. induction fs as [|g fs IHt]; [exact I|]. cbn [fold_right] in *. inversion IH as [|? ? Ha IHl]; subst. destruct H as [H1 H3].
      split; [apply Ha; auto; intros; apply HA; cbn; rewrite in_app_iff; auto|]. apply IHt; auto. intros v Hv. apply HA. cbn. rewrite in_app_iff. auto.
    - intros fs IH H HA. cbn [wfF fvF] in *. induction fs as [|g fs IHt]; [exact I|]. cbn [fold_right] in *. inversion IH as [|? ? Ha IHl]; subst. destruct H as [H1 H3].
      split; [apply Ha; auto; intros; apply HA; cbn; rewrite in_app_iff; auto|]. apply IHt; auto. intros v Hv. apply HA. cbn. rewrite in_app_iff. auto.
    - intros vs g IH [[[v C] _] _]. destruct C.
  Qed.
End Wfv.

(** ** The declarations *)
Lemma vs_of_in l nx : fresh_ids l nx -> forall v, In v (vs_of l) <-> In v l.
Proof. intros [_ H]. apply (of_in l H). apply incl_refl. Qed.
Lemma declare_poses v p vs : poses p vs [] -> poses (declare v p) (v :: vs) [].
Proof.
  intros [H1 H2]. unfold declare. destruct (mem_var v (map fst (p_doms p))) eqn:Em.
  - split; [|exact H2]. intros w d. rewrite H1. apply mem_var_In in Em. apply in_map_iff in Em. destruct Em as ((v' & d') & E & Hin). cbn [fst] in E. subst v'. apply H1 in Hin.
    cbn [In]. destruct Hin as [Hv _]. split; intros [A B]; (split; [|exact B]); intuition (subst; auto).
  - split; [|exact H2]. cbn [p_doms]. intros w d. rewrite in_app_iff, H1. cbn [In]. split.
    + intros [[A B]|[E|[]]]; [auto|]. apply pair_equal_spec in E. destruct E as [-> <-]. auto.
    + intros [[<-|A] B]; [right; left; subst; reflexivity|left; auto].
Qed.
Lemma declares_poses l : forall p vs ops, poses p vs [] -> exists p', poses p' (rev l ++ vs) [] /\
  problems (map (fun v => ODeclare v true) l ++ ops) (p, []) = problems ops (p', []).
Proof.
  induction l as [|v l IH]; intros p vs ops H; cbn [map app problems p_step rev]. { exists p. auto. }
  destruct (IH (declare v p) (v :: vs) ops (declare_poses v p vs H)) as (p' & H1 & H2). exists p'. rewrite <- app_assoc. auto.
Qed.
Lemma poses_iff p vs vs' fs : (forall v, In v vs <-> In v vs') -> poses p vs fs -> poses p vs' fs.
Proof. intros H [H1 H2]. split; [|exact H2]. intros v d. rewrite H1, H. apply iff_refl. Qed.
Lemma poses_assert p vs fs f : poses p vs fs -> poses (add_assert f p) vs (fs ++ [f]).
Proof. intros [H1 H2]. split; [exact H1|]. cbn [add_assert p_asserts]. now rewrite H2. Qed.
Theorem check_problem f nx fuel : fresh_ids (fvF f) nx -> exists p,
  problems (declare_all (fvF f) ++ [OAssert f; OCheck fuel]) (p_empty, []) = [p] /\ poses p (fvF f) [f].
Proof.
  intros H. unfold declare_all. assert (E0 : poses p_empty [] []) by (split; [|reflexivity]; cbn; intuition).
  destruct (declares_poses (vs_of (fvF f)) p_empty [] [OAssert f; OCheck fuel] E0) as (p & H1 & H2). exists (add_assert f p). split; [exact H2|].
  apply (poses_assert p (fvF f) [] f). apply (poses_iff p (rev (vs_of (fvF f)) ++ [])); auto. intros v. rewrite app_nil_r, <- in_rev. apply (vs_of_in _ nx H).
Qed.
Lemma fresh_app l l' nx : fresh_ids (l ++ l') nx -> fresh_ids l nx /\ fresh_ids l' nx.
Proof. intros [H1 H2]. split; (split; [intros v Hv; apply H1|intros v w Hv Hw; apply H2]); apply in_app_iff; auto. Qed.
Lemma declares_poses_all l : forall p vs, poses p vs [] -> exists p', poses p' (rev l ++ vs) [] /\
  forall ops, problems (map (fun v => ODeclare v true) l ++ ops) (p, []) = problems ops (p', []).
Proof.
  induction l as [|v l IH]; intros p vs H; cbn [map app problems p_step rev]. { exists p. auto. }
  destruct (IH (declare v p) (v :: vs) (declare_poses v p vs H)) as (p' & H1 & H2). exists p'. rewrite <- app_assoc. auto.
Qed.
Theorem minimize_problem_all g f nx : fresh_ids (fvF f ++ fvE g) nx -> exists p, poses p (fvF f ++ fvE g) [f] /\
  forall ops, problems ((declare_all (fvF f) ++ declare_all (fvE g) ++ [OAssert f]) ++ ops) (p_empty, []) = problems ops (p, []).
Proof.
  intros H. destruct (fresh_app _ _ _ H) as [Hf Hg]. unfold declare_all. assert (E0 : poses p_empty [] []) by (split; [|reflexivity]; cbn; intuition).
  destruct (declares_poses_all (vs_of (fvF f)) p_empty [] E0) as (p & H1 & E1).
  destruct (declares_poses_all (vs_of (fvE g)) p _ H1) as (p' & H2 & E2). exists (add_assert f p'). split; [|intros ops; rewrite <- !app_assoc, E1, E2; reflexivity].
  apply (poses_assert p' _ [] f). eapply poses_iff; [|exact H2]. intros v. rewrite !in_app_iff, <- !in_rev, (vs_of_in _ nx Hf), (vs_of_in _ nx Hg). cbn [In]. tauto.
Qed.

(** ** The theorems on the context apply *)
Section Adm.
  Variables (M : interp) (D : pdom) (fold : expr -> expr -> option dbl) (K : eops).
  Lemma declares_adm nx l : forall p news ops, (forall v, In v l -> vid v < nx) ->
    (forall p', (forall v, declared p v \/ In v l -> declared p' v) -> p_asserts p' = p_asserts p -> admissible M D fold K nx ops news (p', [])) ->
    admissible M D fold K nx (map (fun v => ODeclare v true) l ++ ops) news (p, []).
  Proof.
    induction l as [|v l IH]; intros p news ops H HP; cbn [map app admissible admissible_q]. { apply HP; auto. intros v [X|[]]. exact X. }
    split; [left; apply H; left; reflexivity|]. cbn [news_step p_step fst]. apply IH; [intros w Hw; apply H; right; exact Hw|].
    intros p' H1 H2. apply HP.
    - intros w [X|[<-|X]]; apply H1; auto; left; unfold declare, declared in *; destruct (mem_var v (map fst (p_doms p))) eqn:Em; auto; cbn [p_doms]; rewrite ?map_app, ?in_app_iff; cbn; auto. now apply mem_var_In.
    - rewrite H2. unfold declare. destruct (mem_var _ _); reflexivity.
  Qed.
  Theorem check_adm f nx fuel : fresh_ids (fvF f) nx -> qf_formula f -> ite_exact M D fold K f ->
    admissible M D fold K nx (declare_all (fvF f) ++ [OAssert f; OCheck fuel]) [] (p_empty, []).
  Proof.
    intros HF Hq Hi. apply declares_adm. { intros v Hv. apply (vs_of_in _ nx HF) in Hv. now apply HF. }
    intros p' H1 _. cbn [admissible admissible_q]. split; [|split; exact I]. cbn [op_ok fst op_ok_q]. split; [|exact Hi].
    pose proof (proj2 (wf_restrict _ _ (fun v => In v (fvF f))) f Hq (fun v Hv => Hv)) as W.
    refine (proj2 (WffProofs.wf_mono _ _ _ _ _ _ _ _ _) f W); cbn beta; [| |intros v []]; intros v [A B]; (split; [|exact A]); apply H1; right; apply (vs_of_in _ nx HF); exact B.
  Qed.
  Lemma declares_delta l : forall p ops, (forall p', delta_ops fold ops (p', [])) -> delta_ops fold (map (fun v => ODeclare v true) l ++ ops) (p, []).
  Proof. induction l as [|v l IH]; intros p ops H; cbn [map app delta_ops]; auto. split; [exact I|]. cbn [p_step]. apply IH, H. Qed.
  Theorem check_delta f fuel : hasIteF f = false -> unfolded fold f -> f <> FFalse -> delta_ops fold (declare_all (fvF f) ++ [OAssert f; OCheck fuel]) (p_empty, []).
  Proof. intros H1 H2 H3. apply declares_delta. intros p. cbn [delta_ops delta_op fst p_step]. split; [split; [exact H1|split; [exact H2|intros E; destruct (H3 E)]]|split; exact I]. Qed.
  Lemma check_ints wl f nx fuel : fresh_ids (fvF f) nx -> (wl = true -> forall v, In v (fvF f) -> is_int_type (vty v) = false) -> CtxTop.ints_ok wl (declare_all (fvF f) ++ [OAssert f; OCheck fuel]).
  Proof.
    intros HF H Hw o v Ho E. apply in_app_iff in Ho. destruct Ho as [Ho|[<-|[<-|[]]]]; try destruct E. apply in_map_iff in Ho. destruct Ho as (w & <- & Hw'). subst w. apply H; auto. apply (vs_of_in _ nx HF). exact Hw'.
  Qed.
End Adm.
Lemma checks_problems ops : forall st ms, map fst (checks ops st ms) = problems ops st.
Proof. induction ops as [|o ops IH]; intros st ms; [reflexivity|]. destruct o; cbn [checks problems map fst]; rewrite ?IH; reflexivity. Qed.

Section Api.
  Variables (fold : expr -> expr -> option dbl) (K : eops) (pico : pico_t) (T : dbl -> nat -> box -> list formula -> option tres) (mid : dbl -> dbl -> dbl).
  Variables (fpow : dbl -> dbl -> dbl) (n : nat).
  Notation run p := (cx_run fold K pico (T p) mid p).
  Lemma check_run f precision nx fuel r : api_check fold K pico T mid f precision nx fuel = Some r ->
    exists c, run precision (declare_all (fvF f) ++ [OAssert f; OCheck fuel]) (cx_init nx) = Some (c, [r]).
  Proof. unfold api_check, answer. destruct (run _ _ _) as [[c [|a [|b l]]]|]; intros E; try discriminate. exists c. congruence. Qed.
  Theorem minimize_run g f precision nx fuel r t : api_minimize fold K pico T mid fpow n g f precision nx fuel = (Val (Some r), t) ->
    exists c mops c', run precision (declare_all (fvF f) ++ declare_all (fvE g) ++ [OAssert f]) (cx_init nx) = Some (c, []) /\ minimize fpow n [g] c = (Val mops, t) /\
      run precision ((declare_all (fvF f) ++ declare_all (fvE g) ++ [OAssert f]) ++ mops ++ [OCheck fuel]) (cx_init nx) = Some (c', [r]).
  Proof.
    unfold api_minimize. destruct (run precision _ (cx_init nx)) as [[c [|a l]]|] eqn:Er; intros E; try (apply ret_val in E; destruct E; discriminate).
    apply bind_val in E. destruct E as (mops & t1 & t2 & E1 & E & ->). apply ret_val in E. destruct E as [E ->]. unfold answer in E.
    destruct (run precision (mops ++ [OCheck fuel]) c) as [[c' [|a [|? ?]]]|] eqn:Ec; try discriminate. injection E as ->. rewrite app_nil_r. exists c, mops, c'.
    split; [reflexivity|]. split; [exact E1|]. rewrite cx_run_app, Er, Ec. reflexivity.
  Qed.
  Theorem box_written f precision nx fuel old b new : api_check_box fold K pico T mid f precision nx fuel old = Some (b, new) ->
    (b = true /\ api_check fold K pico T mid f precision nx fuel = Some (Some new)) \/ (b = false /\ new = old /\ api_check fold K pico T mid f precision nx fuel = Some None).
  Proof. unfold api_check_box. destruct (api_check _ _ _ _ _ _ _ _ _) as [[m|]|]; intros E; try discriminate; injection E as <- <-; auto. Qed.
  Theorem min_box_written g f precision nx fuel old b new t : api_minimize_box fold K pico T mid fpow n g f precision nx fuel old = (Val (Some (b, new)), t) ->
    (b = true /\ api_minimize fold K pico T mid fpow n g f precision nx fuel = (Val (Some (Some new)), t)) \/
    (b = false /\ new = old /\ api_minimize fold K pico T mid fpow n g f precision nx fuel = (Val (Some None), t)).
  Proof.
    unfold api_minimize_box. intros E. apply bind_val in E. destruct E as (o & t1 & t2 & E1 & E & ->). apply ret_val in E. destruct E as [E ->]. rewrite app_nil_r.
    destruct o as [[m|]|]; try discriminate; injection E as <- <-; auto.
  Qed.
End Api.
