(** Propagation on concrete boxes. *)
From Coq Require Import ZArith Reals Lra Lia List Bool Arith.
From Flocq Require Import Core.Core IEEE754.BinarySingleNaN.
From Verif Require Import Dbl DblProofs Syntax Sem Interval IntervalProofs MathConv MathConvProofs IEval StdInterp Contr ContrProofs IbexConv IbexConvProofs ExamplesForm ExamplesBox ExamplesEval ExamplesContr SpecWork WorkProofs.
Import ListNotations.
Local Notation R := Rdefinitions.R.
#[local] Opaque dZ mkd.

Definition lib_bound (vars : list var) (f : formula) : option (nat * ival) :=
  match ibex_convert plain_sub plain_neg vars 10 f with COk (Some c) => bound_of c | _ => None end.
Definition bound_used (vars : list var) (f : formula) : bool := match lib_bound vars f with Some (i, _) => uses vars f i | None => true end.
Definition bwd_of (o : option (nat * ival)) (iv : list ival) : bool * list ival :=
  match o with
  | Some (i, d) => if Nat.ltb i (length iv) then match i_inter (nth i iv IEmpty) d with IEmpty => (false, map (fun _ => IEmpty) iv) | j => (false, upd_nth i j iv) end else (true, iv)
  | None => (true, iv)
  end.
Definition lib_bwd (vars : list var) (f : formula) (iv : list ival) : bool * list ival := bwd_of (lib_bound vars f) iv.
Lemma lib_bwd_eq f b : o_bwd lib_orc f b = lib_bwd (bvars b) f (bvals b).
Proof.
  unfold lib_bwd, bwd_of, lib_bound. cbn [lib_orc ibex_oracles o_bwd]. destruct (ibex_convert plain_sub plain_neg (bvars b) 10 f) as [[c|]| | |]; reflexivity.
Qed.
Lemma fwd_box term n f s s' : prune lib_orc term n (CFwd f) s = Some s' -> cs_box s' = mkBox (bvars (cs_box s)) (snd (lib_bwd (bvars (cs_box s)) f (bvals (cs_box s)))).
Proof.
  intros E. destruct n as [|n]; [discriminate|]. cbn [prune] in E. assert (s' = prune_fwd lib_orc f s) as -> by congruence. unfold prune_fwd. rewrite lib_bwd_eq.
  destruct (lib_bwd _ f _) as [inner iv]. destruct inner; [reflexivity|]. destruct (b_empty _); [apply add_used_box|]. destruct (changed_bits _ _ _ _); [reflexivity|apply add_used_box].
Qed.
(** the library is at rest exactly if the bound it knows holds everywhere in the component *)
Lemma lib_rest term f b i d : box_ok b -> b_full b -> lib_bound (bvars b) f = Some (i, d) -> i < length (bvals b) -> i_ok d ->
  (at_rest lib_orc term (CFwd f) b <-> forall x, imem x (b_get b i) -> imem x d).
Proof.
  intros K F Eb Li Kd. assert (Ki : i_ok (b_get b i)) by (apply box_ok_get; exact K).
  assert (Fi : i_empty (b_get b i) = false). { unfold b_full in F. rewrite Forall_forall in F. apply F. apply nth_In. exact Li. }
  destruct (i_ok_member _ Ki Fi) as [x0 Hx0]. split.
  - intros H x Hx. specialize (H 1%nat (cs_new b None) _ eq_refl eq_refl i). pose proof (fwd_box term 1 f (cs_new b None) _ eq_refl) as E.
    rewrite E in H. cbn [cs_new cs_box] in H. unfold lib_bwd, bwd_of in H. rewrite Eb in H. apply Nat.ltb_lt in Li. rewrite Li in H. unfold b_get at 1 in H. cbn [bvals] in H.
    change (nth i (bvals b) IEmpty) with (b_get b i) in H. destruct (i_inter (b_get b i) d) as [|l u] eqn:Ej; cbn [snd] in H.
    + exfalso. apply (H x0) in Hx0. rewrite (map_nth (fun _ => IEmpty) (bvals b) IEmpty i) in Hx0. exact Hx0.
    + apply (H x) in Hx. rewrite nth_upd_nth_eq in Hx by (apply Nat.ltb_lt; exact Li). rewrite <- Ej in Hx. apply (i_inter_mem x _ d Ki Kd) in Hx. apply Hx.
  - intros H n s s' Es Ep j. rewrite (fwd_box term n f s s' Ep), Es. unfold lib_bwd, bwd_of. rewrite Eb. pose proof Li as Li'. apply Nat.ltb_lt in Li'. rewrite Li'.
    change (nth i (bvals b) IEmpty) with (b_get b i). destruct (i_inter (b_get b i) d) as [|l u] eqn:Ej; cbn [snd].
    + exfalso. assert (X : imem x0 (i_inter (b_get b i) d)) by (apply (i_inter_mem x0 _ d Ki Kd); auto). rewrite Ej in X. exact X.
    + unfold b_get at 1. cbn [bvals]. destruct (Nat.eq_dec i j) as [<-|N]; [|rewrite nth_upd_nth_ne by exact N; apply same_refl].
      rewrite nth_upd_nth_eq by exact Li. rewrite <- Ej. intros x. rewrite (i_inter_mem x _ d Ki Kd). split; [tauto|auto].
Qed.
Lemma lib_local term vars f : vars <> [] -> bound_used vars f = true -> decided_by_inputs lib_orc term vars (CFwd f).
Proof.
  intros N Hu b b' K K' F F' V V' Hi R. unfold bound_used in Hu. destruct (lib_bound vars f) as [[i d]|] eqn:Eb.
  - assert (Kd : i_ok d). { unfold lib_bound in Eb. destruct (ibex_convert _ _ vars 10 f) as [[c|]| | |]; try discriminate. apply (bound_ok _ _ _ Eb). }
    assert (Li : i < length vars). { unfold uses in Hu. destruct (nth_error vars i) eqn:E; [apply nth_error_Some; congruence|discriminate]. }
    assert (L1 : i < length (bvals b)) by (rewrite (box_len _ K) by (rewrite V; exact N); unfold b_size; rewrite V; exact Li).
    assert (L2 : i < length (bvals b')) by (rewrite (box_len _ K') by (rewrite V'; exact N); unfold b_size; rewrite V'; exact Li).
    rewrite <- V in Eb. pose proof (proj1 (lib_rest term f b i d K F Eb L1 Kd) R) as H. rewrite V, <- V' in Eb.
    apply (lib_rest term f b' i d K' F' Eb L2 Kd). intros x Hx. apply H. apply (Hi i Hu). exact Hx.
  - intros n s s' Es Ep j. rewrite (fwd_box term n f s s' Ep), Es. unfold lib_bwd, bwd_of. rewrite V', Eb. cbn [snd]. apply same_refl.
Qed.

(** ** x <= 3, n >= 2.5 over x in [0,4] and the integer n in [-3,8] *)
Definition wk : list contractor := [CFwd f_le3; CFwd f_ge25; CInteger [1%nat]].
Lemma fwd_cok f : side_ok Mstd stdD plain_sub f -> conv_ok f = true -> (forall v, In v (fvF f) -> In v [vx; vi]) -> c_ok Mstd stdD lib_orc [vx; vi] (CFwd f).
Proof.
  intros Sd Hc Hv. cbn [c_ok]. split; [|exact Hv]. unfold conv_ok in Hc. destruct (ibex_convert plain_sub plain_neg [vx; vi] 10 f) as [[c|]| | |] eqn:E; try discriminate.
  exact (fwd_from_ibex Mstd stdD lib plain_sub plain_neg 10 (fun _ _ => None) lib_ok (plain_neg_ok _ _) (std_sqrt_ok _ _) f c [vx; vi] Sd E).
Qed.
Lemma sides_ok : side_ok Mstd stdD plain_sub f_le3 /\ side_ok Mstd stdD plain_sub f_ge25.
Proof.
  split; intros a b E; cbn [lit_sides f_le3 f_ge25] in E; (assert (Y : forall p q : expr, Some (p, q) = Some (a, b) -> p = a /\ q = b) by (intros p q X; split; congruence)); apply Y in E; destruct E as [<- <-]; apply plain_sub_ok; first [exact Logic.I|vm_compute; reflexivity].
Qed.
Lemma int_cok : c_ok Mstd stdD lib_orc [vx; vi] (CInteger [1%nat]).
Proof. intros i [<-|[]]. exists vi. split; reflexivity. Qed.
Lemma wk_hyps : Forall (c_ok Mstd stdD lib_orc (bvars exb)) wk /\ Forall single wk /\ Forall (decided_by_inputs lib_orc default_term (bvars exb)) wk.
Proof.
  change (bvars exb) with [vx; vi]. split; [|split].
  - repeat apply Forall_cons; try apply Forall_nil; [apply fwd_cok; [apply sides_ok|vm_compute; reflexivity|simpl; tauto]|apply fwd_cok; [apply sides_ok|vm_compute; reflexivity|simpl; tauto]|exact int_cok].
  - repeat constructor.
  - repeat apply Forall_cons; try apply Forall_nil; [apply lib_local; [discriminate|vm_compute; reflexivity]|apply lib_local; [discriminate|vm_compute; reflexivity]|exact Logic.I].
Qed.
Lemma wk_run : comps_are (prune lib_orc default_term 20 (CWork wk) (cs_new exb None)) (IV dzero (dZ 3)) (IV (dZ 3) (dZ 8)) = true.
Proof. vm_compute. reflexivity. Qed.

(** ** An unbounded integer variable *)
Definition hang_box : box := mkBox [vx; vi] [IV dzero (dZ 4); IV dninf dpinf].
Definition hang_cs : list contractor := [CFwd f_le3; CInteger [1%nat]].
Lemma hang_box_ok : box_ok hang_box /\ b_full hang_box.
Proof.
  split; [|repeat constructor]. split; [repeat constructor; simpl; intuition discriminate|]. split; [reflexivity|].
  repeat constructor; vm_compute; reflexivity.
Qed.
Lemma hang_cs_ok : Forall (c_ok Mstd stdD lib_orc (bvars hang_box)) hang_cs /\ Forall single hang_cs /\ Forall (decided_by_inputs lib_orc default_term (bvars hang_box)) hang_cs.
Proof.
  change (bvars hang_box) with [vx; vi]. split; [|split].
  - repeat apply Forall_cons; try apply Forall_nil; [apply fwd_cok; [apply sides_ok|vm_compute; reflexivity|simpl; tauto]|exact int_cok].
  - repeat constructor.
  - repeat apply Forall_cons; try apply Forall_nil; [apply lib_local; [discriminate|vm_compute; reflexivity]|exact Logic.I].
Qed.
(** n unbounded: the integer contractor leaves the box as it is and reports n *)
Definition free_n (s : cstat) : Prop := bvars (cs_box s) = [vx; vi] /\ exists l u, bvals (cs_box s) = [IV l u; IV dninf dpinf].
Lemma int_free s : free_n s -> cs_box (prune_int [1%nat] (cs_with_out s bits0)) = cs_box s /\ cs_out (prune_int [1%nat] (cs_with_out s bits0)) = bits_set bits0 1.
Proof.
  intros (V & l & u & E). destruct s as [b bp out us wt]. cbn [cs_box cs_with_out] in *. destruct b as [bv bl]. cbn [bvars bvals] in *. subst bv bl. split; reflexivity.
Qed.
Lemma spin_int n p : forall s (wl : bits), free_n s -> wl 0%nat = false -> wl_phase2 (prune lib_orc default_term p) n hang_cs s wl 1 = None.
Proof.
  induction n as [|n IH]; intros s wl Fs W0; cbn [wl_phase2]; [reflexivity|]. cbn [hang_cs nth_error].
  destruct p as [|p]; [reflexivity|]. cbn [prune bind]. destruct (int_free s Fs) as [Eb Eo].
  set (s1 := prune_int [1%nat] (cs_with_out s bits0)) in *. assert (F1 : free_n s1) by (unfold free_n; rewrite Eb; exact Fs).
  destruct F1 as (V1 & l & u & E1) eqn:EF. rewrite V1, Eo. unfold b_empty at 1. rewrite E1. cbn [nth i_empty]. unfold b_size. rewrite V1.
  set (wl2 := wl_update [vx; vi] hang_cs (length [vx; vi]) (bits_set bits0 1) (fun j => negb (j =? 1) && wl j)).
  assert (A : wl2 0%nat = false). { unfold wl2, wl_update. rewrite W0. vm_compute. reflexivity. }
  assert (B : wl2 1%nat = true). { unfold wl2, wl_update. change (negb (1 =? 1) && wl 1%nat) with false. vm_compute. reflexivity. }
  cbn [length hang_cs bits_find Nat.sub]. rewrite A, B. apply IH; [exact F1|exact A].
Qed.
Lemma bound_le3 : exists d, lib_bound [vx; vi] f_le3 = Some (0%nat, d).
Proof.
  assert (E : match lib_bound [vx; vi] f_le3 with Some (O, _) => true | _ => false end = true) by (vm_compute; reflexivity).
  destruct (lib_bound [vx; vi] f_le3) as [[[|i] d]|]; [|discriminate|discriminate]. exists d. reflexivity.
Qed.
Lemma bwd_free d l u : i_empty (nth 0 (snd (bwd_of (Some (0%nat, d)) [IV l u; IV dninf dpinf])) IEmpty) = false ->
  exists l' u', snd (bwd_of (Some (0%nat, d)) [IV l u; IV dninf dpinf]) = [IV l' u'; IV dninf dpinf].
Proof.
  unfold bwd_of. cbn [length Nat.ltb Nat.leb nth]. destruct (i_inter (IV l u) d) as [|l' u']; [discriminate|]. intros _. exists l', u'. reflexivity.
Qed.
Lemma fwd_free_gen o b b' d : o = Some (0%nat, d) -> (bvars b = [vx; vi] /\ exists l u, bvals b = [IV l u; IV dninf dpinf]) ->
  b' = mkBox (bvars b) (snd (bwd_of o (bvals b))) -> b_empty b' = false -> bvars b' = [vx; vi] /\ exists l u, bvals b' = [IV l u; IV dninf dpinf].
Proof.
  intros -> (V & l & u & E) Eb Em. rewrite E in Eb. subst b'. unfold b_empty in Em. cbn [bvals] in Em. apply bwd_free in Em. destruct Em as (l' & u' & E').
  cbn [bvars bvals]. split; [exact V|]. exists l', u'. exact E'.
Qed.
Lemma fwd_box_gen f vars o s s' : lib_bound vars f = o -> bvars (cs_box s) = vars -> prune lib_orc default_term 1 (CFwd f) s = Some s' ->
  cs_box s' = mkBox (bvars (cs_box s)) (snd (bwd_of o (bvals (cs_box s)))).
Proof. intros <- <- Ep. exact (fwd_box default_term 1 f s s' Ep). Qed.
Lemma fwd_free s s' : prune lib_orc default_term 1 (CFwd f_le3) s = Some s' -> free_n s -> b_empty (cs_box s') = false -> free_n s'.
Proof.
  intros Ep F. destruct bound_le3 as [d Ed]. pose proof (fwd_box_gen f_le3 [vx; vi] _ s s' Ed (proj1 F) Ep) as Eb. revert Eb. clear Ep Ed. intros Eb Em.
  exact (fwd_free_gen _ (cs_box s) (cs_box s') d eq_refl F Eb Em).
Qed.
Lemma run_fwd p f s : prune lib_orc default_term (S p) (CFwd f) s = Some (prune_fwd lib_orc f s). Proof. reflexivity. Qed.
Lemma run_int p idx s : prune lib_orc default_term (S p) (CInteger idx) s = Some (prune_int idx s). Proof. reflexivity. Qed.
Lemma fwd_free' s : free_n s -> b_empty (cs_box (prune_fwd lib_orc f_le3 s)) = false -> free_n (prune_fwd lib_orc f_le3 s).
Proof. exact (fwd_free s _ (run_fwd 0 f_le3 s)). Qed.
Lemma free_out s o : free_n s -> free_n (cs_with_out s o). Proof. exact (fun H => H). Qed.
#[local] Opaque prune_fwd prune_int lib_bound.
Definition hs0 : cstat := cs_new hang_box None.
Definition hs1 : cstat := prune_fwd lib_orc f_le3 (cs_with_out hs0 bits0).
Definition hs2 : cstat := prune_int [1%nat] (cs_with_out hs1 bits0).
Definition hs3 : cstat := prune_fwd lib_orc f_le3 (cs_with_out hs2 bits0).
Definition hw1 : bits := wl_update (bvars (cs_box hs1)) hang_cs (b_size (cs_box hs1)) (cs_out hs1) bits0.
Definition hw2 : bits := wl_update (bvars (cs_box hs2)) hang_cs (b_size (cs_box hs2)) (cs_out hs2) hw1.
Definition hw3 : bits := wl_update (bvars (cs_box hs3)) hang_cs (b_size (cs_box hs3)) (cs_out hs3) (fun j => negb (Nat.eqb j 0) && hw2 j).
Lemma hs_free : free_n hs3.
Proof.
  assert (F0 : free_n hs0) by (split; [reflexivity|]; exists dzero, (dZ 4); reflexivity).
  assert (E1 : b_empty (cs_box hs1) = false) by (vm_compute; reflexivity).
  assert (E3 : b_empty (cs_box hs3) = false) by (vm_compute; reflexivity).
  assert (F1 : free_n hs1) by (unfold hs1; apply fwd_free'; [apply free_out; exact F0|exact E1]).
  assert (F2 : free_n hs2). { unfold free_n. unfold hs2. rewrite (proj1 (int_free hs1 F1)). exact F1. }
  unfold hs3; apply fwd_free'; [apply free_out; exact F2|exact E3].
Qed.
Lemma hang_none n : prune lib_orc default_term n (CWork hang_cs) (cs_new hang_box None) = None.
Proof.
  destruct n as [|n]; [reflexivity|]. cbn [prune]. unfold wl_run. cbn [cs_new cs_bp]. destruct n as [|p]; [reflexivity|].
  assert (E : wl_phase1 (prune lib_orc default_term (S p)) hang_cs hang_cs (cs_new hang_box None) bits0 = Some (hs2, hw2, false)).
  { cbn [wl_phase1 hang_cs]. rewrite run_fwd. change (prune_fwd lib_orc f_le3 (cs_with_out (cs_new hang_box None) bits0)) with hs1. cbn [bind].
    assert (E1 : b_empty (cs_box hs1) = false) by (vm_compute; reflexivity). rewrite E1.
    rewrite run_int. change (prune_int [1%nat] (cs_with_out hs1 bits0)) with hs2. cbn [bind].
    assert (E2 : b_empty (cs_box hs2) = false) by (vm_compute; reflexivity). rewrite E2. reflexivity. }
  rewrite E. cbn [bind]. assert (F : bits_find hw2 0 (length hang_cs) = Some 0%nat) by (vm_compute; reflexivity). rewrite F.
  assert (T : default_term (bvals (cs_box (cs_new hang_box None))) (bvals (cs_box hs2)) = false) by (vm_compute; reflexivity). rewrite T.
  change (wl_phase2 (prune lib_orc default_term (S p)) (S p) hang_cs hs2 hw2 0) with
    (bind (prune lib_orc default_term (S p) (CFwd f_le3) (cs_with_out hs2 bits0)) (fun s' => if b_empty (cs_box s') then Some s' else
      let wl2 := wl_update (bvars (cs_box s')) hang_cs (b_size (cs_box s')) (cs_out s') (fun j => negb (Nat.eqb j 0) && hw2 j) in
      match bits_find wl2 0 2 with None => Some s' | Some first =>
        match bits_find wl2 1 1 with Some k' => wl_phase2 (prune lib_orc default_term (S p)) p hang_cs s' wl2 k' | None => wl_phase2 (prune lib_orc default_term (S p)) p hang_cs s' wl2 first end end)).
  rewrite run_fwd. change (prune_fwd lib_orc f_le3 (cs_with_out hs2 bits0)) with hs3. cbn [bind].
  assert (E3 : b_empty (cs_box hs3) = false) by (vm_compute; reflexivity). rewrite E3. fold hw3. cbv zeta.
  assert (F3 : bits_find hw3 0 2 = Some 1%nat) by (vm_compute; reflexivity). rewrite F3.
  assert (F4 : bits_find hw3 1 1 = Some 1%nat) by (vm_compute; reflexivity). rewrite F4.
  apply spin_int; [exact hs_free|vm_compute; reflexivity].
Qed.
Lemma hang_fix : comps_are (prune lib_orc default_term 20 (CFix hang_cs) (cs_new hang_box None)) (IV dzero (dZ 3)) (IV dninf dpinf) = true.
Proof. vm_compute. reflexivity. Qed.
Lemma hang_example : exists all b, box_ok b /\ b_full b /\
  Forall (c_ok Mstd stdD lib_orc (bvars b)) all /\ Forall single all /\ Forall (decided_by_inputs lib_orc default_term (bvars b)) all /\
  (forall n, prune lib_orc default_term n (CWork all) (cs_new b None) = None) /\
  exists n s', prune lib_orc default_term n (CFix all) (cs_new b None) = Some s' /\ b_empty (cs_box s') = false.
Proof.
  exists hang_cs, hang_box. split; [apply hang_box_ok|]. split; [apply hang_box_ok|]. split; [apply hang_cs_ok|]. split; [apply hang_cs_ok|]. split; [apply hang_cs_ok|].
  split; [exact hang_none|]. exists 20%nat.
  assert (E : match prune lib_orc default_term 20 (CFix hang_cs) (cs_new hang_box None) with Some s' => negb (b_empty (cs_box s')) | None => false end = true) by (vm_compute; reflexivity).
  destruct (prune lib_orc default_term 20 (CFix hang_cs) (cs_new hang_box None)) as [s'|]; [|discriminate]. exists s'. split; [reflexivity|]. apply negb_true_iff. exact E.
Qed.
Lemma wk_example : Forall (c_ok Mstd stdD lib_orc (bvars exb)) wk /\ Forall single wk /\ Forall (decided_by_inputs lib_orc default_term (bvars exb)) wk /\
  box_ok exb /\ b_full exb /\ comps_are (prune lib_orc default_term 20 (CWork wk) (cs_new exb None)) (IV dzero (dZ 3)) (IV (dZ 3) (dZ 8)) = true.
Proof.
  destruct wk_hyps as (A & B & C). split; [exact A|]. split; [exact B|]. split; [exact C|]. split; [|split; [repeat constructor|exact wk_run]].
  split; [repeat constructor; simpl; intuition discriminate|]. split; [reflexivity|]. repeat constructor; vm_compute; reflexivity.
Qed.
