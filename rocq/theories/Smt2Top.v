(** * SMT-LIB scripts: scoping, definitions, Boolean quantifiers *)
From Coq Require Import ZArith Reals Lra Lia List Bool ClassicalDescription.
From Flocq Require Import IEEE754.BinarySingleNaN.
From Verif Require Import Dbl DblProofs Syntax Sem SemProofs FormulaCons FormulaConsProofs IEval StdInterp MathConv ExplainProofs IteElimProofs
  Order ExprAlg SpecAlg PowProofs ExprAlgProofs AlgClosed Subst SubstProofs AlgTop Context SpecCtx Smt2 SpecSmt2 SmtOcc Smt2Proofs.
Import ListNotations.

(** ** The value of a term depends on the names it uses *)
Section Agree.
  Variables (M : interp) (D : pdom).
  Variables (FN FN' : fenv) (FD FD' : nat -> list value -> Prop).
  Definition sameE (l : list nat) (E E' : nenv) : Prop := forall x, In x l -> E x = E' x.
  Definition sameF (l : list nat) : Prop := forall f, In f l -> (forall vs, FN f vs = FN' f vs) /\ (forall vs, FD f vs <-> FD' f vs).
  Definition AG (t : sterm) : Prop := forall E E', sameE (uses t) E E' -> sameF (calls t) ->
    den M FN t E = den M FN' t E' /\ (defd M FN D FD t E <-> defd M FN' D FD' t E').
  Lemma sameE_app a b E E' : sameE (a ++ b) E E' <-> sameE a E E' /\ sameE b E E'.
  Proof. unfold sameE. setoid_rewrite in_app_iff. firstorder. Qed.
  Lemma sameF_app a b : sameF (a ++ b) <-> sameF a /\ sameF b.
  Proof. unfold sameF. setoid_rewrite in_app_iff. split; [intros H; split; intros f X; apply H; auto|intros [H1 H2] f [X|X]; auto]. Qed.
  Lemma AG_list l : Forall AG l -> forall E E', sameE (flat_map uses l) E E' -> sameF (flat_map calls l) ->
    map (fun t => den M FN t E) l = map (fun t => den M FN' t E') l /\ Forall (fun t => den M FN t E = den M FN' t E' /\ (defd M FN D FD t E <-> defd M FN' D FD' t E')) l.
  Proof.
    induction 1 as [|t l H HF IH]; intros E E' HE HC; cbn [flat_map map] in *; [split; auto|].
    apply sameE_app in HE. apply sameF_app in HC. destruct HE as [E1 E2], HC as [C1 C2]. destruct (IH E E' E2 C2) as [I1 I2]. destruct (H E E' E1 C1) as [H1 H2].
    split; [congruence|constructor; auto].
  Qed.
  Lemma fold_defd' FNx FDx E l : fold_right (fun a acc => defd M FNx D FDx a E /\ acc) True l <-> Forall (fun t => defd M FNx D FDx t E) l.
  Proof. induction l as [|a l IH]; cbn [fold_right]; [split; auto|]. rewrite IH. split; [intros [A B]; auto|intros A; inversion A; auto]. Qed.
  Lemma fold_agree (P P' : sterm -> Prop) l : Forall (fun t => P t <-> P' t) l -> fold_right (fun a acc => P a /\ acc) True l <-> fold_right (fun a acc => P' a /\ acc) True l.
  Proof. induction 1; cbn [fold_right]; [tauto|]. rewrite H, IHForall. tauto. Qed.
  Lemma bool_map l E E' : map (fun t => den M FN t E) l = map (fun t => den M FN' t E') l -> map (fun t => vb (den M FN t E)) l = map (fun t => vb (den M FN' t E')) l /\
     map (fun t => vr (den M FN t E)) l = map (fun t => vr (den M FN' t E')) l.
  Proof. intros H. split; [apply (f_equal (map vb)) in H|apply (f_equal (map vr)) in H]; rewrite !map_map in H; exact H. Qed.
  Lemma forallb_map' {X} (f : X -> bool) l : forallb f l = forallb (fun x => x) (map f l). Proof. induction l; cbn; congruence. Qed.
  Lemma existsb_map' {X} (f : X -> bool) l : existsb f l = existsb (fun x => x) (map f l). Proof. induction l; cbn; congruence. Qed.
  Lemma bindv_same x v l E E' : sameE (filter (fun y => negb (Nat.eqb y x)) l) E E' -> sameE l (bindv x v E) (bindv x v E').
  Proof. intros H y Hy. unfold bindv. destruct (Nat.eqb y x) eqn:Q; auto. apply H. apply filter_In. split; auto. now rewrite Q. Qed.
  Lemma all_values_agree (Dm : binder -> value -> Prop) (k k' : nenv -> Prop) l bs : (forall E E', sameE l E E' -> (k E <-> k' E')) -> forall E E',
    sameE (filter (fun x => negb (existsb (Nat.eqb x) (map (fun b => fst (fst b)) bs))) l) E E' -> all_values Dm bs E k <-> all_values Dm bs E' k'.
  Proof.
    intros Hk. revert l k k' Hk. induction bs as [|b bs IH]; intros l k k' Hk E E' HE; cbn [all_values].
    - apply Hk. intros x Hx. apply HE. apply filter_In. split; auto.
    - assert (X : forall v, all_values Dm bs (bindv (fst (fst b)) v E) k <-> all_values Dm bs (bindv (fst (fst b)) v E') k').
      { intros v. apply (IH l k k' Hk). apply bindv_same. intros x Hx. apply filter_In in Hx. destruct Hx as [Hx N1]. apply filter_In in Hx. destruct Hx as [Hx N2]. apply HE. apply filter_In. split; auto.
        cbn [map existsb]. apply negb_true_iff in N1, N2. rewrite N1, N2. reflexivity. }
      split; intros H v Dv; apply X, H, Dv.
  Qed.
  Lemma bindvs_same (bs : list (nat * value)) l E E' : sameE (filter (fun x => negb (existsb (Nat.eqb x) (map fst bs))) l) E E' -> sameE l (bindvs bs E) (bindvs bs E').
  Proof.
    revert l. induction bs as [|[x v] bs IH]; intros l H; cbn [bindvs fold_right fst snd].
    - intros y Hy. apply H. apply filter_In. split; auto.
    - apply bindv_same. apply IH. intros y Hy. apply filter_In in Hy. destruct Hy as [Hy N1]. apply filter_In in Hy. destruct Hy as [Hy N2]. apply H. apply filter_In. split; auto.
      cbn [map existsb fst]. apply negb_true_iff in N1, N2. rewrite N1, N2. reflexivity.
  Qed.
  Ltac two := match goal with HE : sameE (_ ++ _) _ _, HC : sameF (_ ++ _) |- _ => apply sameE_app in HE; apply sameF_app in HC; let a := fresh "Ea" in let b := fresh "Eb" in let c := fresh "Ca" in let d := fresh "Cb" in destruct HE as [a b], HC as [c d] end.
  Lemma den_agree t : AG t.
  Proof.
    induction t using sterm_ind2; intros E E' HE HC; cbn [uses calls] in HE, HC; cbn [den defd];
      try (split; [reflexivity|tauto]; fail);
      try (two; destruct (IHt1 E E' Ea Ca) as [A1 A2]; destruct (IHt2 E E' Eb Cb) as [B1 B2]; rewrite A1, B1; split; [reflexivity|tauto]; fail);
      try (destruct (IHt E E' HE HC) as [A1 A2]; rewrite A1; split; [reflexivity|tauto]; fail).
    - split; [|tauto]. apply HE. left; auto.
    - destruct (AG_list l H E E' HE HC) as [A1 A2]. split; [f_equal; rewrite (forallb_map' _ l), (forallb_map' (fun t => vb (den M FN' t E')) l), (proj1 (bool_map _ _ _ A1)); auto|].
      apply fold_agree. eapply Forall_impl; [|exact A2]. intros a [_ X]; exact X.
    - destruct (AG_list l H E E' HE HC) as [A1 A2]. split; [f_equal; rewrite (existsb_map' _ l), (existsb_map' (fun t => vb (den M FN' t E')) l), (proj1 (bool_map _ _ _ A1)); auto|].
      apply fold_agree. eapply Forall_impl; [|exact A2]. intros a [_ X]; exact X.
    - destruct (AG_list l H E E' HE HC) as [A1 A2]. split; [f_equal; rewrite (proj1 (bool_map _ _ _ A1)); auto|].
      apply fold_agree. eapply Forall_impl; [|exact A2]. intros a [_ X]; exact X.
    - two. two. destruct (IHt1 E E' Ea Ca) as [A1 A2]. destruct (IHt2 E E' Ea0 Ca0) as [B1 B2]. destruct (IHt3 E E' Eb0 Cb0) as [C1 C2]. rewrite A1, B1, C1. split; [reflexivity|tauto].
    - assert (K : forall E E', sameE (uses t) E E' -> den M FN t E = den M FN' t E' /\ (defd M FN D FD t E <-> defd M FN' D FD' t E')) by (intros F F' X; apply IHt; auto).
      split; [f_equal; apply decide_iff|]; apply (all_values_agree _ _ _ (uses t)); auto; intros F F' X; destruct (K F F' X) as [X1 X2]; [rewrite X1; tauto|exact X2].
    - apply sameE_app in HE. apply sameF_app in HC. destruct HE as [E1 E2], HC as [C1 C2].
      assert (Hb : map (fun p : nat * sterm => match p with (x, b) => (x, den M FN b E) end) bs = map (fun p : nat * sterm => match p with (x, b) => (x, den M FN' b E') end) bs /\
        (fold_right (fun p acc => match p with (x, b) => defd M FN D FD b E /\ acc end) True bs <-> fold_right (fun p acc => match p with (x, b) => defd M FN' D FD' b E' /\ acc end) True bs)).
      { clear E2 C2 IHt. induction bs as [|[x b] bs IHb]; cbn [map fold_right flat_map snd] in *; [split; [auto|tauto]|].
        apply sameE_app in E1. apply sameF_app in C1. destruct E1 as [E1 E2], C1 as [C1 C2]. inversion H; subst. destruct (IHb H3 E2 C2) as [I1 I2]. destruct (H2 E E' E1 C1) as [J1 J2].
        rewrite J1, I1. split; [reflexivity|tauto]. }
      destruct Hb as [B1 B2]. rewrite B1. set (nb := map _ bs). assert (N : map fst nb = map fst bs) by (unfold nb; rewrite map_map; apply map_ext; intros [x b]; auto).
      destruct (IHt (bindvs nb E) (bindvs nb E')) as [A1 A2]; auto. { apply bindvs_same. rewrite N. exact E2. }
      split; [exact A1|tauto].
    - two. destruct (IHt E E' Ea Ca) as [A1 A2]. destruct (AG_list l H E E' Eb Cb) as [L1 L2]. rewrite A1. split.
      + destruct l; [auto|]. f_equal. now rewrite (proj2 (bool_map _ _ _ L1)).
      + rewrite A2. apply and_iff_compat_l. apply fold_agree. eapply Forall_impl; [|exact L2]. intros a [X1 X2]. cbn beta in *. rewrite X1. tauto.
    - assert (HC2 : sameF (flat_map calls l)) by (intros g Hg; apply HC; right; auto). destruct (AG_list l H E E' HE HC2) as [L1 L2]. destruct (HC f (or_introl eq_refl)) as [F1 F2].
      rewrite L1, F1. split; [reflexivity|]. rewrite F2. apply and_iff_compat_r. apply fold_agree. eapply Forall_impl; [|exact L2]. intros a [_ X2]; exact X2.
  Qed.
End Agree.

(** ** Standard scoping and the front end's agree on scripts that respect it *)
Section Scopes.
  Variables (M : interp) (D : pdom) (V : nat -> value).
  Definition same (w : list nat * list nat) (E E' : nenv) (FN FN' : fenv) (FD FD' : nat -> list value -> Prop) : Prop :=
    sameE (fst w) E E' /\ sameF FN FN' FD FD' (snd w).
  Fixpoint chain (w : list nat * list nat) (r : list (list nat * list nat)) : Prop :=
    match r with [] => True | w' :: r' => incl (fst w') (fst w) /\ incl (snd w') (snd w) /\ chain w' r' end.
  Inductive saved (E : nenv) (FN : fenv) (FD : nat -> list value -> Prop) : list (list Prop) -> list sstate -> list (list nat * list nat) -> Prop :=
  | sv_nil : saved E FN FD [] [] []
  | sv_cons F Fs z Z w r : F = ss_facts z -> same w E (ss_env z) FN (ss_funs z) FD (ss_fdef z) -> saved E FN FD Fs Z r -> saved E FN FD (F :: Fs) (z :: Z) (w :: r).
  Definition SC (s : sstate) (q : sstate * list sstate) (sc : scopes) : Prop :=
    ss_count s = ss_count (fst q) /\ ss_facts s = ss_facts (fst q) /\
    same (fst sc) (ss_env s) (ss_env (fst q)) (ss_funs s) (ss_funs (fst q)) (ss_fdef s) (ss_fdef (fst q)) /\
    chain (fst sc) (snd sc) /\ saved (ss_env s) (ss_funs s) (ss_fdef s) (ss_saved s) (snd q) (snd sc).

  Lemma same_bind w E E' FN FN' FD FD' x v : same w E E' FN FN' FD FD' -> same (x :: fst w, snd w) (bindv x v E) (bindv x v E') FN FN' FD FD'.
  Proof.
    intros [H1 H2]. split; [|exact H2]. intros y Hy. cbn [fst] in Hy. unfold bindv. destruct (Nat.eqb y x) eqn:Q; auto. apply Nat.eqb_neq in Q.
    apply H1. destruct Hy as [Hy|Hy]; auto. congruence.
  Qed.
  Lemma chain_incl w r w' : chain w r -> In w' r -> incl (fst w') (fst w) /\ incl (snd w') (snd w).
  Proof.
    revert w. induction r as [|u r IH]; intros w H [].
    - subst. cbn [chain] in H. tauto.
    - cbn [chain] in H. destruct H as (A & B & C). destruct (IH u C H0) as [I1 I2]. split; eapply incl_tran; eauto.
  Qed.
  Lemma chain_cons w r x y : chain w r -> incl (fst w) x -> incl (snd w) y -> chain (x, y) r.
  Proof. destruct r as [|u r]; cbn [chain]; auto. intros (A & B & C) Hx Hy. split; [eapply incl_tran; eauto|]. split; [eapply incl_tran; eauto|auto]. Qed.
  Lemma saved_env E FN FD Fs Z r x v : (forall w, In w r -> ~ In x (fst w)) -> saved E FN FD Fs Z r -> saved (bindv x v E) FN FD Fs Z r.
  Proof.
    intros H S. induction S as [|F Fs z Z w r EF [S1 S2] S IH]; constructor; auto.
    - split; auto. intros y Hy. unfold bindv. destruct (Nat.eqb y x) eqn:Q; [|apply S1; auto]. apply Nat.eqb_eq in Q. subst. destruct (H w (or_introl eq_refl)). exact Hy.
    - apply IH. intros w' Hw'. apply H. right; auto.
  Qed.
  Lemma saved_fun E FN FD Fs Z r f g gd : (forall w, In w r -> ~ In f (snd w)) -> saved E FN FD Fs Z r ->
    saved E (fun h => if Nat.eqb h f then g else FN h) (fun h => if Nat.eqb h f then gd else FD h) Fs Z r.
  Proof.
    intros H S. induction S as [|F Fs z Z w r EF [S1 S2] S IH]; constructor; auto.
    - split; auto. intros y Hy. destruct (Nat.eqb y f) eqn:Q; [|apply S2; auto]. apply Nat.eqb_eq in Q. subst. destruct (H w (or_introl eq_refl)). exact Hy.
    - apply IH. intros w' Hw'. apply H. right; auto.
  Qed.
  Lemma same_term w E E' FN FN' FD FD' t : same w E E' FN FN' FD FD' -> incl (uses t) (fst w) -> incl (calls t) (snd w) ->
    den M FN t E = den M FN' t E' /\ (defd M FN D FD t E <-> defd M FN' D FD' t E').
  Proof. intros [H1 H2] U C. apply den_agree; [intros x Hx; apply H1, U, Hx|intros f Hf; apply H2, C, Hf]. Qed.
  Lemma args_same ps vs l E E' : sameE l E E' -> sameE (map fst ps ++ l) (args_env ps vs E) (args_env ps vs E').
  Proof.
    unfold args_env. assert (K : forall (xs : list nat) (ws : list value) E E', (forall x, In x l -> E x = E' x) -> length xs <= length ws -> forall x, In x (xs ++ l) ->
      fold_left (fun E' p => bindv (fst p) (snd p) E') (combine xs ws) E x = fold_left (fun E' p => bindv (fst p) (snd p) E') (combine xs ws) E' x).
    { clear E E'. intros xs. assert (G : forall ws E E' (P : nat -> Prop), (forall x, P x -> E x = E' x) -> length xs <= length ws -> forall x, In x xs \/ P x ->
        fold_left (fun E' p => bindv (fst p) (snd p) E') (combine xs ws) E x = fold_left (fun E' p => bindv (fst p) (snd p) E') (combine xs ws) E' x).
      { induction xs as [|y xs IH]; intros [|v ws] E E' P HE L x Hx; cbn [combine fold_left length] in *; try lia; try (destruct Hx as [[]|Hx]; auto; fail).
        cbn [fst snd]. apply (IH ws _ _ (fun z => z = y \/ P z)); [|lia|destruct Hx as [[Hx|Hx]|Hx]; auto].
        intros z Hz. unfold bindv. destruct (Nat.eqb z y) eqn:Q; auto. apply Nat.eqb_neq in Q. destruct Hz as [Hz|Hz]; [congruence|auto]. }
      intros ws E E' HE L x Hx. apply (G ws E E' (fun z => In z l)); auto. apply in_app_or in Hx. exact Hx. }
    intros H x Hx. apply K; auto. rewrite map_length, app_length, repeat_length. lia.
  Qed.
  Lemma saved_len E FN FD Fs Z r : saved E FN FD Fs Z r -> length Z = length r /\ length Fs = length r.
  Proof. induction 1; cbn [length]; [auto|]. destruct IHsaved. auto. Qed.
  Lemma pops_ok k : forall E FN FD cnt F Fs z Z ns r, k <= length r -> F = ss_facts z -> cnt = ss_count z -> same ns E (ss_env z) FN (ss_funs z) FD (ss_fdef z) -> chain ns r -> saved E FN FD Fs Z r ->
    SC (let (F', Z') := pops k F Fs in mkS cnt E FN FD F' Z') (z_pops k z Z) (n_pops k (ns, r)).
  Proof.
    induction k as [|k IH]; intros E FN FD cnt F Fs z Z ns r L EF Ec Hs Hc S; cbn [pops z_pops n_pops snd].
    - unfold SC. destruct Z; cbn [fst snd ss_count ss_facts ss_env ss_funs ss_fdef ss_saved]; exact (conj Ec (conj EF (conj Hs (conj Hc S)))).
    - destruct S as [|F1 Fs z1 Z w r EF1 S1 S]; cbn [length] in L; [lia|]. cbn [chain] in Hc. apply IH; cbn [ss_facts ss_count ss_env ss_funs ss_fdef]; auto; try lia. tauto.
  Qed.
  Lemma chain_repeat k w r : chain w r -> chain w (repeat w k ++ r).
  Proof. intros H. induction k as [|k IH]; cbn [repeat app chain]; auto. split; [apply incl_refl|]. split; [apply incl_refl|exact IH]. Qed.
  Lemma saved_repeat k E FN FD F Fs z Z w r : F = ss_facts z -> same w E (ss_env z) FN (ss_funs z) FD (ss_fdef z) -> saved E FN FD Fs Z r ->
    saved E FN FD (pushes k F Fs) (repeat z k ++ Z) (repeat w k ++ r).
  Proof.
    intros HF Hs. revert Fs Z r. induction k as [|k IH]; intros Fs Z r S; cbn [pushes]; [exact S|].
    assert (R1 : forall X (x : X) l, repeat x (1 + k) ++ l = repeat x k ++ x :: l) by (intros X x l; clear; induction k as [|k IH]; cbn [repeat app plus] in *; [auto|rewrite IH; auto]).
    change (repeat z (Datatypes.S k)) with (repeat z (1 + k)). change (repeat w (Datatypes.S k)) with (repeat w (1 + k)). rewrite !R1. apply IH. constructor; auto.
  Qed.

  Lemma scopes_ok cs : forall s q sc, SC s q sc -> names_ok cs sc -> s_checks M D V cs s = z_checks M D V cs q /\ (z_defd M D V cs q -> s_defd M D V cs s).
  Proof.
    induction cs as [|c cs IH]; intros s q sc H N; [split; auto|].
    destruct s as [cnt E FN FD F Fs], q as [[cnt' E' FN' FD' F' Fs'] Z], sc as [[ns fs] r]. destruct H as (Hc & HF & Hs & Hch & HS).
    cbn [fst snd ss_count ss_facts ss_env ss_funs ss_fdef ss_saved] in *. subst cnt' F'.
    destruct c as [x so bd|f [|p0 ps] so t|t|k|k|fuel]; cbn [names_ok] in N.
    - destruct N as [N1 N2]. cbn [s_checks z_checks s_defd z_defd].
      destruct (IH (s_step M D V (KDeclare x so bd) (mkS cnt E FN FD F Fs)) (z_step M D V (KDeclare x so bd) (mkS cnt E' FN' FD' F Fs', Z)) (x :: ns, fs, r)) as [I1 I2]; auto.
      { split; [reflexivity|]. split; [reflexivity|]. split; [apply same_bind with (w := (ns, fs)); exact Hs|]. split; [apply (chain_cons (ns, fs)); auto; [intros y; right; auto|apply incl_refl]|].
        apply saved_env; auto. intros w Hw X. apply N1. apply (proj1 (chain_incl _ _ _ Hch Hw)). exact X. }
      split; [exact I1|]. intros [_ X]. split; auto.
    - destruct N as (N1 & N2 & N3 & N4). cbn [map app] in N1. destruct (same_term _ _ _ _ _ _ _ t Hs N1 N2) as [T1 T2]. cbn [s_checks z_checks s_defd z_defd fst snd ss_funs ss_env ss_fdef].
      destruct (IH (s_step M D V (KDefine f [] so t) (mkS cnt E FN FD F Fs)) (z_step M D V (KDefine f [] so t) (mkS cnt E' FN' FD' F Fs', Z)) (f :: ns, fs, r)) as [I1 I2]; auto.
      { split; [reflexivity|]. split; [cbn [s_step z_step fst ss_facts]; rewrite T1; reflexivity|]. split; [apply same_bind with (w := (ns, fs)); exact Hs|]. split; [apply (chain_cons (ns, fs)); auto; [intros y; right; auto|apply incl_refl]|].
        apply saved_env; auto. intros w Hw X. apply N3. apply (proj1 (chain_incl _ _ _ Hch Hw)). exact X. }
      split; [exact I1|]. intros [Y X]. split; [apply T2, Y|auto].
    - destruct N as (N1 & N2 & N3 & N4). set (pl := p0 :: ps) in *. cbn [s_checks z_checks s_defd z_defd fst snd ss_funs ss_env ss_fdef].
      destruct (IH (s_step M D V (KDefine f pl so t) (mkS cnt E FN FD F Fs)) (z_step M D V (KDefine f pl so t) (mkS cnt E' FN' FD' F Fs', Z)) (ns, f :: fs, r)) as [I1 I2]; auto.
      { assert (T : forall vs, den M FN t (args_env pl vs E) = den M FN' t (args_env pl vs E') /\ (defd M FN D FD t (args_env pl vs E) <-> defd M FN' D FD' t (args_env pl vs E'))).
        { intros vs. apply (same_term (map fst pl ++ ns, fs)); auto. split; [apply args_same; apply (proj1 Hs)|apply (proj2 Hs)]. }
        split; [reflexivity|]. split; [reflexivity|]. split.
        { split; [exact (proj1 Hs)|]. intros h Hh. cbn [pl s_step z_step fst ss_funs ss_fdef]. destruct (Nat.eqb h f) eqn:Q.
          - split; intros vs; apply T.
          - destruct Hh as [Hh|Hh]; [apply Nat.eqb_neq in Q; cbn [fst] in Hh; congruence|]. apply (proj2 Hs h Hh). }
        split; [apply (chain_cons (ns, fs)); auto; [apply incl_refl|intros y; right; auto]|].
        apply saved_fun; auto. intros w Hw X. apply N3. apply (proj2 (chain_incl _ _ _ Hch Hw)). exact X. }
      split; [exact I1|]. intros [_ X]. split; [exact I|auto].
    - destruct N as (N1 & N2 & N4). destruct (same_term _ _ _ _ _ _ _ t Hs N1 N2) as [T1 T2]. cbn [s_checks z_checks s_defd z_defd fst snd ss_funs ss_env ss_fdef].
      destruct (IH (s_step M D V (KAssert t) (mkS cnt E FN FD F Fs)) (z_step M D V (KAssert t) (mkS cnt E' FN' FD' F Fs', Z)) (ns, fs, r)) as [I1 I2]; auto.
      { split; [reflexivity|]. split; [cbn [s_step z_step fst ss_facts]; rewrite T1; reflexivity|]. split; [exact Hs|]. split; auto. }
      split; [exact I1|]. intros [Y X]. split; [apply T2, Y|auto].
    - cbn [s_checks z_checks s_defd z_defd].
      destruct (IH (s_step M D V (KPush k) (mkS cnt E FN FD F Fs)) (z_step M D V (KPush k) (mkS cnt E' FN' FD' F Fs', Z)) (ns, fs, repeat (ns, fs) k ++ r)) as [I1 I2]; auto.
      { split; [reflexivity|]. split; [reflexivity|]. split; [exact Hs|]. split; [apply chain_repeat; auto|]. apply saved_repeat; auto. }
      split; [exact I1|]. intros [_ X]. split; auto.
    - destruct N as [N1 N2]. cbn [s_checks z_checks s_defd z_defd].
      destruct (IH (s_step M D V (KPop k) (mkS cnt E FN FD F Fs)) (z_step M D V (KPop k) (mkS cnt E' FN' FD' F Fs', Z)) (n_pops k (ns, fs, r))) as [I1 I2]; auto.
      { apply pops_ok; auto. }
      split; [exact I1|]. intros [_ X]. split; auto.
    - cbn [s_checks z_checks s_defd z_defd fst ss_facts].
      destruct (IH (s_step M D V (KCheck fuel) (mkS cnt E FN FD F Fs)) (z_step M D V (KCheck fuel) (mkS cnt E' FN' FD' F Fs', Z)) (ns, fs, r)) as [I1 I2]; auto.
      { split; [reflexivity|]. split; [reflexivity|]. split; [exact Hs|]. split; auto. }
      split; [f_equal; exact I1|]. intros [_ X]. split; auto.
  Qed.
  Lemma scopes_init cs : names_ok cs ([], [], []) -> s_checks M D V cs s_init = z_checks M D V cs (s_init, []) /\ (z_defd M D V cs (s_init, []) -> s_defd M D V cs s_init).
  Proof. intros N. apply (scopes_ok cs s_init (s_init, []) ([], [], [])); auto. split; [reflexivity|]. split; [reflexivity|]. split; [split; [intros x []|intros f []]|]. split; [exact I|constructor]. Qed.
End Scopes.

(** ** Definitions *)
Section Defs.
  Variables (uf : nat -> list R -> R) (rc : dbl -> dbl -> R) (fpow : dbl -> dbl -> dbl) (n : nat) (alloc : nat -> nat).
  Notation M := (std uf rc).
  Notation ok := (Forall (exact M)).
  Notation el := (elab fpow n alloc).
  Hypothesis Hal : forall i j, i < j -> alloc i < alloc j.
  Ltac ub H :=
    repeat match type of H with
    | bind _ _ = (Val _, _) =>
        let a := fresh "a" in let t1 := fresh "t" in let t2 := fresh "t" in
        let H1 := fresh "H" in
        apply bind_val in H; destruct H as (a & t1 & t2 & H1 & H & ->)
    end;
    try (apply ret_val in H; let E := fresh in destruct H as [-> E]).
  Lemma bind_lets_funs bs : forall s s1 tr, bind_lets fpow n alloc bs s = (Val s1, tr) -> d_funs s1 = d_funs s.
  Proof.
    induction bs as [|[x [e|f]] bs IH]; intros s s1 tr E; cbn [bind_lets] in E.
    - apply ret_val in E. destruct E as [-> _]. auto.
    - unfold declare_local, register in E. apply bind_val in E. destruct E as (g & t1 & t2 & E1 & E2 & ->). rewrite (IH _ _ _ E2). reflexivity.
    - unfold declare_local, register in E. rewrite (IH _ _ _ E). reflexivity.
  Qed.
  Lemma reg_binders_funs bs : forall s q s1, reg_binders alloc bs s = (q, s1) -> d_funs s1 = d_funs s.
  Proof.
    induction bs as [|[[x so] bd] bs IH]; intros s q s1 E; cbn [reg_binders] in E; [injection E as _ <-; auto|].
    destruct (register alloc x so s) as [v s'] eqn:Er. destruct (reg_binders alloc bs s') as [q0 s2] eqn:Eb. injection E as _ <-.
    rewrite (IH _ _ _ Eb). unfold register in Er. injection Er as _ <-. reflexivity.
  Qed.
  Lemma reg_params_funs ps : forall s q s1, reg_params alloc ps s = (q, s1) -> d_funs s1 = d_funs s /\ map vty q = map (fun p => sort_type (snd p)) ps.
  Proof.
    induction ps as [|[x so] ps IH]; intros s q s1 E; cbn [reg_params] in E; [injection E as <- <-; auto|].
    destruct (declare_local alloc x so s) as [v s'] eqn:Er. destruct (reg_params alloc ps s') as [q0 s2] eqn:Eb. injection E as <- <-.
    destruct (IH _ _ _ Eb) as [G1 G2]. unfold declare_local, register in Er. injection Er as <- <-. split; [rewrite G1; reflexivity|]. cbn [map snd vty]. f_equal. exact G2.
  Qed.
  Definition PFu (t : sterm) : Prop := forall s r tr, el t s = (Val r, tr) -> d_funs (snd r) = d_funs s.
  Lemma elabs_funs l : Forall PFu l -> forall s r tr, elabs el l s = (Val r, tr) -> d_funs (snd r) = d_funs s.
  Proof.
    induction 1 as [|a l Ha Hl IH]; intros s r tr E; cbn [elabs] in E; ub E; auto.
    cbn [snd]. rewrite (IH _ _ _ H0). apply (Ha _ _ _ H).
  Qed.
  Lemma elab_funs t : PFu t.
  Proof.
    induction t using sterm_ind2; intros s r tr E; cbn [elab] in E.
    1, 2: (apply ret_val in E; destruct E as [-> _]; auto).
    - destruct (assoc x (d_scope s)); [|discriminate]. apply ret_val in E. destruct E as [-> _]. auto.
    - apply ret_val in E; destruct E as [-> _]; auto.
    - apply ret_val in E; destruct E as [-> _]; auto.
    - apply bind_val in E. destruct E as (p & u1 & u2 & E1 & E2 & ->). apply bind_val in E2. destruct E2 as (q & u3 & u4 & E2 & E3 & ->).
      assert (snd r = snd q) as ->.
      { destruct (fst p), (fst q); try discriminate; [apply bind_val in E3; destruct E3 as (g & ? & ? & _ & E3 & _)|]; apply ret_val in E3; destruct E3 as [-> _]; auto. }
      rewrite (IHt2 _ _ _ E2). apply (IHt1 _ _ _ E1).
    - ub E. cbn [snd]. rewrite (IHt2 _ _ _ H0). apply (IHt1 _ _ _ H).
    - ub E. cbn [snd]. eapply elabs_funs; eauto.
    - ub E. cbn [snd]. eapply elabs_funs; eauto.
    - ub E. cbn [snd]. eapply elabs_funs; eauto.
    - ub E. cbn [snd]. eapply IHt; eauto.
    - ub E. cbn [snd]. rewrite (IHt2 _ _ _ H0). apply (IHt1 _ _ _ H).
    - apply bind_val in E. destruct E as (p & t1' & t2' & E1 & E2 & ->). apply bind_val in E2. destruct E2 as (q & t3' & t4 & E2 & E3 & ->).
      apply bind_val in E3. destruct E3 as (u & t5 & t6 & E3 & E4 & ->). apply bind_val in E4. destruct E4 as (g & t7 & t8 & E4 & E5 & ->).
      assert (snd r = snd u) as -> by (destruct (fst q), (fst u); try discriminate; apply ret_val in E5; destruct E5 as [-> _]; auto).
      rewrite (IHt3 _ _ _ E3), (IHt2 _ _ _ E2). apply (IHt1 _ _ _ E1).
    - destruct (reg_binders alloc bs s) as [q s1] eqn:Er. ub E. cbn [snd with_scope d_funs]. unfold mk_quant in H2. ub H2. cbn [snd note d_funs].
      rewrite (IHt _ _ _ H0). eapply reg_binders_funs; eauto.
    - ub E. cbn [snd with_scope d_funs]. destruct (elab_binds_elabs _ _ _ _ _ H0) as [Hbb _]. rewrite (IHt _ _ _ H2), (bind_lets_funs _ _ _ _ H1). apply (elabs_funs _ H _ _ _ Hbb).
    - ub E. cbn [snd]. eapply IHt; eauto.
    - apply bind_val in E. destruct E as (p & t1' & t2' & E1 & E2 & ->). apply bind_val in E2. destruct E2 as (q & t3' & t4 & E2 & E3 & ->).
      assert (snd r = snd q) as ->. { destruct (fst q); [apply ret_val in E3; destruct E3 as [-> _]; auto|]. ub E3; auto. }
      rewrite (elabs_funs _ H _ _ _ E2). apply (IHt _ _ _ E1).
    - ub E. cbn [snd]. eapply IHt; eauto.
    - ub E. cbn [snd]. rewrite (IHt2 _ _ _ H0). apply (IHt1 _ _ _ H).
    - apply bind_val in E. destruct E as (p & t1' & t2' & E1 & E2 & ->). destruct (assoc f (d_funs (snd p))); [|discriminate]. ub E2. cbn [snd]. eapply elabs_funs; eauto.
  Qed.
  Lemma elabs_length l : forall s r tr, elabs el l s = (Val r, tr) -> length (fst r) = length l.
  Proof. induction l as [|a l IH]; intros s r tr E; cbn [elabs] in E; ub E; auto. cbn [fst length]. rewrite (IH _ _ _ H0). auto. Qed.
  Lemma script_snoc cs c : forall s s' tr, script fpow n alloc (cs ++ [c]) s = (Val s', tr) ->
    exists s1 t1 t2, script fpow n alloc cs s = (Val s1, t1) /\ command fpow n alloc c s1 = (Val s', t2) /\ tr = t1 ++ t2.
  Proof.
    induction cs as [|a cs IH]; intros s s' tr E; cbn [app script] in E.
    - apply bind_val in E. destruct E as (s1 & t1 & t2 & E1 & E2 & ->). apply ret_val in E2. destruct E2 as [-> ->]. exists s, [], t1. rewrite app_nil_r. split; [reflexivity|]. split; [exact E1|reflexivity].
    - apply bind_val in E. destruct E as (s1 & t1 & t2 & E1 & E2 & ->). destruct (IH _ _ _ E2) as (s2 & t3 & t4 & E3 & E4 & ->).
      exists s2, (t1 ++ t3), t4. split; [|split; [exact E4|apply app_assoc]]. cbn [script]. unfold bind. rewrite E1, E3. reflexivity.
  Qed.
  (** A call with the wrong number or kinds of arguments is rejected. *)
  Theorem app_rejects cs f p0 ps so t s tr l tm s' tr' : script fpow n alloc (cs ++ [KDefine f (p0 :: ps) so t]) drv0 = (Val s, tr) -> el (SApp f l) s = (Val (tm, s'), tr') ->
    length l = length (p0 :: ps) /\ exists args s1 t1, elabs el l s = (Val (args, s1), t1) /\ Forall2 (fun a p => is_form a = true <-> snd p = SoBool) args (p0 :: ps) /\
      (is_form tm = true <-> so = SoBool).
  Proof.
    set (pl := p0 :: ps). assert (Np : pl <> []) by discriminate. clearbody pl. intros E E1. apply script_snoc in E. destruct E as (s0 & u1 & u2 & _ & E & ->). cbn [command] in E.
    destruct (reg_params alloc pl s0) as [vs s2] eqn:Er. destruct (reg_params_funs pl s0 vs s2 Er) as [_ Tv].
    apply bind_val in E. destruct E as ([b s3] & u3 & u4 & E2 & E & ->). cbn [fst snd] in E.
    assert (Fs : assoc f (d_funs s) = Some (mkFd vs so b)).
    { destruct vs; [destruct pl; [congruence|discriminate]|]. apply ret_val in E. destruct E as [-> _]. cbn [d_funs assoc]. rewrite Nat.eqb_refl. reflexivity. }
    clear E. cbn [elab] in E1. apply bind_val in E1. destruct E1 as ([args s4] & u5 & u6 & E1 & E3 & ->). cbn [fst snd] in E3.
    assert (Hf : d_funs s4 = d_funs s) by (apply (elabs_funs l (proj2 (Forall_forall _ _) (fun x _ => elab_funs x)) s (args, s4) u5 E1)). rewrite Hf, Fs in E3.
    pose proof (elabs_length l s (args, s4) u5 E1) as La. cbn [fst] in La.
    apply bind_val in E3. destruct E3 as (r & u7 & u8 & E3 & E4 & ->). apply ret_val in E4. destruct E4 as [E4 _]. injection E4 as -> _.
    unfold apply_fun in E3. cbn [fd_params fd_sort fd_body] in E3. destruct (Nat.eqb (length vs) (length args)) eqn:Ln; [|discriminate]. cbn [negb] in E3. apply Nat.eqb_eq in Ln.
    destruct (type_ok b (sort_type so)) eqn:Tb; [|discriminate]. cbn [negb] in E3.
    assert (Lv : length vs = length pl) by (rewrite <- (map_length vty vs), Tv; apply map_length).
    split; [lia|]. exists args, s4, u5. split; [exact E1|].
    assert (KS : forall t so, type_ok t (sort_type so) = true -> (is_form t = true <-> so = SoBool)).
    { intros t0 so0 H. unfold type_ok in H. apply Bool.eqb_prop in H. rewrite H. destruct so0; cbn; split; intros; auto; discriminate. }
    assert (IS : forall t v a u w, term_subst fpow n t v a = (Val u, w) -> is_form u = is_form t).
    { intros [x|x] v [a|a] u w H; cbn [term_subst] in H; apply bind_val in H; destruct H as (y & ? & ? & _ & H & _); apply ret_val in H; destruct H as [-> _]; reflexivity. }
    clear E1 E2 La Fs Er Np Hf. assert (G : Forall2 (fun a p => is_form a = true <-> snd p = SoBool) args pl /\ is_form r = is_form b).
    { clear Tb. revert args pl b r u7 Ln Lv Tv E3. induction vs as [|v vs IH]; intros args pl b r u7 Ln Lv Tv E3; destruct pl as [|p pl], args as [|a args]; try discriminate; cbn [apply_args] in E3.
      - apply ret_val in E3. destruct E3 as [-> _]. split; [constructor|auto].
      - destruct (type_ok a (vty v)) eqn:Ta; [|discriminate]. apply bind_val in E3. destruct E3 as (b' & ? & ? & E4 & E5 & ->). cbn [map] in Tv. injection Tv as T1 T2.
        cbn [length] in Ln, Lv. injection Ln as Ln. injection Lv as Lv. destruct (IH args pl b' r _ Ln Lv T2 E5) as [I1 I2]. split; [constructor; auto; rewrite T1 in Ta; apply KS, Ta|]. rewrite I2. apply (IS _ _ _ _ _ E4). }
    destruct G as [G1 G2]. split; [exact G1|]. rewrite G2. apply KS, Tb.
  Qed.

  Lemma run_snoc (V : nat -> value) cs c s : s_run M stdD V (cs ++ [c]) s = s_step M stdD V c (s_run M stdD V cs s).
  Proof. unfold s_run. rewrite fold_left_app. reflexivity. Qed.
  (** A call has the value of the body with the parameters bound to the values of the arguments. *)
  Theorem app_expands (V : nat -> value) cs f p0 ps so t s tr l tm s' tr' : script fpow n alloc (cs ++ [KDefine f (p0 :: ps) so t]) drv0 = (Val s, tr) -> ok tr ->
    Forall plain_cmd (cs ++ [KDefine f (p0 :: ps) so t]) -> Forall kept (d_notes s') -> s_defd M stdD V (cs ++ [KDefine f (p0 :: ps) so t]) s_init -> s_sorted V (cs ++ [KDefine f (p0 :: ps) so t]) 0 ->
    el (SApp f l) s = (Val (tm, s'), tr') -> ok tr' -> Forall plain_term l -> existsb has_let l = false ->
    let S0 := s_run M stdD V cs s_init in let S1 := s_run M stdD V (cs ++ [KDefine f (p0 :: ps) so t]) s_init in
    let vals := map (fun a => den M (ss_funs S1) a (ss_env S0)) l in
    Forall (fun a => defd M (ss_funs S1) stdD (ss_fdef S1) a (ss_env S0)) l -> defd M (ss_funs S0) stdD (ss_fdef S0) t (args_env (p0 :: ps) vals (ss_env S0)) ->
    forall rho, reads V (rev (d_ops s)) rho ->
    term_value M tm rho = den M (ss_funs S0) t (args_env (p0 :: ps) vals (ss_env S0)) /\ term_def M stdD tm rho.
  Proof.
    intros E Ht Hp Hk Hd Hs Ee Ht' Pl Hl S0 S1 vals Da Db rho Hr.
    assert (Es : ss_env S1 = ss_env S0). { unfold S1. rewrite run_snoc. fold S0. destruct S0 as [k0 e0 fn0 fd0 f0 z0]. reflexivity. }
    assert (Ef : ss_funs S1 f = fun vs => den M (ss_funs S0) t (args_env (p0 :: ps) vs (ss_env S0))). { unfold S1. rewrite run_snoc. fold S0. destruct S0 as [k0 e0 fn0 fd0 f0 z0]. cbn [s_step ss_funs]. rewrite Nat.eqb_refl. reflexivity. }
    assert (Ed : ss_fdef S1 f = fun vs => defd M (ss_funs S0) stdD (ss_fdef S0) t (args_env (p0 :: ps) vs (ss_env S0))). { unfold S1. rewrite run_snoc. fold S0. destruct S0 as [k0 e0 fn0 fd0 f0 z0]. cbn [s_step ss_fdef]. rewrite Nat.eqb_refl. reflexivity. }
    pose proof (term_ok uf rc fpow n alloc Hal V _ s tr (SApp f l) tm s' tr' E Ht Hp Hk Hd Hs Ee Ht') as T. fold S1 in T. cbn [plain_term has_let defd den] in T. rewrite Es, Ef, Ed in T.
    apply T; auto.
    - clear - Pl. induction Pl; cbn [fold_right]; auto.
    - split; [clear - Da; induction Da; cbn [fold_right]; auto|exact Db].
  Qed.

  (** ** Boolean quantifiers *)
  Lemma elim_top (B A : var -> Prop) vs f g tr : (forall v, A v -> ~ B v) -> occF B A f -> elim_bools fpow n vs f = (Val g, tr) -> ok tr ->
    occF B (fun v => A v /\ ~ (In v vs /\ vty v = BOOLEAN)) g /\
    forall rho, defF M stdD (FForall (filter (fun v => vtype_eqb (vty v) BOOLEAN) vs) f) rho ->
      defF M stdD g rho /\ (holds M g rho <-> holds M (FForall (filter (fun v => vtype_eqb (vty v) BOOLEAN) vs) f) rho).
  Proof.
    intros HAB Ho E Ht. destruct (elim_bools_ev uf rc fpow n B vs A f g tr HAB Ho E Ht) as [O1 S1]. split.
    - apply (occF_mono B g (fun v => A v /\ ~ In v (bools vs))); auto. intros v [X Y]. split; auto. intros Z. apply Y, in_bools, Z.
    - intros rho D. destruct (S1 rho) as [D1 V1]; [exact D|]. split; [exact D1|exact V1].
  Qed.
  Lemma quant_top (B A : var -> Prop) vs dom f s r tr : (forall v, A v -> ~ B v) -> occF B A f -> occF B A dom -> mk_quant fpow n vs dom f s = (Val r, tr) -> ok tr ->
    occF (fun v => B v \/ In v vs /\ vty v <> BOOLEAN) (fun v => A v) (fst r).
  Proof.
    intros HAB Ho Hd E Ht. unfold mk_quant in E. apply bind_val in E. destruct E as (g & t1 & t2 & E1 & E2 & ->). apply ret_val in E2. destruct E2 as [-> ->]. rewrite app_nil_r in Ht. cbn [fst].
    destruct (elim_top B A vs f g t1 HAB Ho E1 Ht) as [Og _]. set (B' := fun v => B v \/ In v vs /\ vty v <> BOOLEAN).
    assert (Up : forall h A', occF B A' h -> occF B' A' h) by (intros h A'; apply (proj2 (occ_bound B B' (fun v X => or_introl X)))).
    assert (Og1 : occF B' A g) by (apply (occF_mono B' g (fun v => A v /\ ~ (In v vs /\ vty v = BOOLEAN)) A); [tauto|apply Up, Og]).
    set (q := filter _ vs). assert (Hq : forall v, In v q -> B' v).
    { intros v Hv. unfold q in Hv. apply filter_In in Hv. destruct Hv as [H1 H2]. right. split; auto. intros Tb. apply mem_var_In in H2.
      apply (proj2 (proj2 (occ_fv B) g _ Og v H2)). auto. }
    clearbody q. assert (K : occF B' A (mk_forall q (mk_imply dom g))).
    { apply occ_mk_forall; auto. apply (occF_mono B' _ A); [tauto|]. unfold mk_imply. apply occ_mk_or; auto. apply occ_mk_not, Up, Hd. }
    destruct q; auto.
  Qed.
End Defs.

(** ** No Boolean variable is quantified *)
Lemma occ_binds (B : var -> Prop) : (forall e A, occE B A e -> forall v, In v (boundE e) -> B v) /\ (forall f A, occF B A f -> forall v, In v (boundF f) -> B v).
Proof.
  apply expr_formula_ind2; try (intros; contradiction).
  - intros c ts IH A H v Hv. rewrite occ_add in H. cbn [boundE] in Hv. apply in_flat_map in Hv. destruct Hv as ([a k] & H1 & H2).
    rewrite Forall_forall in IH. apply (IH (a, k) H1 A (H a k H1) v H2).
  - intros c ts IH A H v Hv. rewrite occ_mul in H. cbn [boundE] in Hv. apply in_flat_map in Hv. destruct Hv as ([a k] & H1 & H2).
    rewrite Forall_forall in IH. destruct (IH (a, k) H1) as [I1 I2]. destruct (H a k H1) as [O1 O2]. apply in_app_iff in H2. destruct H2; [apply (I1 A)|apply (I2 A)]; auto.
  - intros o a IH A H v Hv. apply (IH A H v Hv).
  - intros o a b IH1 IH2 A [H1 H2] v Hv. cbn [boundE] in Hv. apply in_app_iff in Hv. destruct Hv; [apply (IH1 A)|apply (IH2 A)]; auto.
  - intros f a b IH1 IH2 IH3 A (H1 & H2 & H3) v Hv. cbn [boundE] in Hv. rewrite !in_app_iff in Hv. destruct Hv as [Hv|[Hv|Hv]]; [apply (IH1 A)|apply (IH2 A)|apply (IH3 A)]; auto.
  - intros o a b IH1 IH2 A [H1 H2] v Hv. cbn [boundF] in Hv. apply in_app_iff in Hv. destruct Hv; [apply (IH1 A)|apply (IH2 A)]; auto.
  - intros fs IH A H v Hv. rewrite occ_and in H. cbn [boundF] in Hv. apply in_flat_map in Hv. destruct Hv as (g & H1 & H2). rewrite Forall_forall in IH. apply (IH g H1 A); auto.
  - intros fs IH A H v Hv. rewrite occ_or in H. cbn [boundF] in Hv. apply in_flat_map in Hv. destruct Hv as (g & H1 & H2). rewrite Forall_forall in IH. apply (IH g H1 A); auto.
  - intros g IH A H v Hv. apply (IH A H v Hv).
  - intros vs g IH A [H1 H2] v Hv. cbn [boundF] in Hv. apply in_app_iff in Hv. destruct Hv as [Hv|Hv]; auto. apply (IH _ H2 v Hv).
Qed.
Section NoBool.
  Variables (uf : nat -> list R -> R) (rc : dbl -> dbl -> R) (fpow : dbl -> dbl -> dbl) (n : nat) (alloc : nat -> nat).
  Notation M := (std uf rc).
  Notation ok := (Forall (exact M)).
  Notation el := (elab fpow n alloc).
  Notation res := (res M).
  Let NB (v : var) : Prop := vty v <> BOOLEAN.
  Let T (v : var) : Prop := True.
  Notation qE := (occE NB T).
  Notation qF := (occF NB T).
  Notation qT := (occT NB T).
  Definition QS (s : drv) : Prop := (forall f, In (OAssert f) (d_ops s) -> qF f) /\ (forall f fd, In (f, fd) (d_funs s) -> qT (fd_body fd)).
  Lemma QS_ops s sc k o nt : QS s -> (forall f, o <> OAssert f) -> QS (mkDrv sc (d_funs s) k (o :: d_ops s) nt).
  Proof. intros [H1 H2] N. split; cbn [d_ops d_funs]; auto. intros f [X|X]; auto. destruct (N f X). Qed.
  Lemma QS_same s sc k nt : QS s -> QS (mkDrv sc (d_funs s) k (d_ops s) nt).
  Proof. intros [H1 H2]. split; auto. Qed.
  Lemma QS_assert f s : qF f -> QS s -> QS (assert_f f s).
  Proof. intros Hf [H1 H2]. split; cbn [assert_f emit d_ops d_funs]; auto. intros g [X|X]; auto. injection X as <-. auto. Qed.
  Lemma QS_local x so s : QS s -> QS (snd (declare_local alloc x so s)).
  Proof. intros H. apply (QS_ops (snd (register alloc x so s))); [|discriminate]. apply QS_ops; [auto|discriminate]. Qed.
  Lemma QS_reg x so s : QS s -> QS (snd (register alloc x so s)).
  Proof. intros H. apply QS_ops; [auto|discriminate]. Qed.
  Lemma QS_decl x so bd s : QS s -> QS (snd (declare_var alloc x so bd s)).
  Proof. intros H. unfold declare_var. cbn [register snd]. apply (QS_ops (snd (register alloc x so s))); [apply QS_ops; [auto|discriminate]|]. destruct bd as [[l u]|]; discriminate. Qed.
  Lemma QS_binders bs : forall s, QS s -> QS (snd (reg_binders alloc bs s)).
  Proof.
    induction bs as [|[[x so] bd] bs IH]; intros s H; cbn [reg_binders]; auto. pose proof (QS_reg x so s H) as H1. destruct (register alloc x so s) as [v s1]. cbn [snd] in H1.
    specialize (IH s1 H1). destruct (reg_binders alloc bs s1) as [q s2]. auto.
  Qed.
  Lemma QS_params ps : forall s, QS s -> QS (snd (reg_params alloc ps s)).
  Proof.
    induction ps as [|[x so] ps IH]; intros s H; cbn [reg_params]; auto. pose proof (QS_local x so s H) as H1. destruct (declare_local alloc x so s) as [v s1]. cbn [snd] in H1.
    specialize (IH s1 H1). destruct (reg_params alloc ps s1) as [q s2]. auto.
  Qed.
  Lemma q_getE t : qT t -> res qE (getE t). Proof. destruct t; intros H; [apply res_ret; auto|intros r tr E; discriminate]. Qed.
  Lemma q_getF t : qT t -> res qF (getF t). Proof. destruct t; intros H; [intros r tr E; discriminate|apply res_ret; auto]. Qed.
  Lemma res_throw {X} (Q : X -> Prop) : res Q throw. Proof. intros r t E. discriminate. Qed.
  Lemma q_domain q : res qF (domain_of fpow n q).
  Proof.
    induction q as [|[v [l u]] q IH]; cbn [domain_of]; [apply res_ret; exact I|].
    apply (res_bind M qF); auto. intros d Hd. destruct ((is_finite l || is_finite u) && vtype_eqb (vty v) BOOLEAN) eqn:Ek; [apply res_throw|].
    assert (Hv : is_finite l || is_finite u = true -> qE (EVar v)) by (intros X; rewrite X in Ek; split; [exact I|intros Y; rewrite Y in Ek; discriminate]).
    apply (res_bind M qF).
    - destruct (is_finite l) eqn:El; [|apply res_ret; auto]. apply (res_bind M qF); [apply occ_relm; [exact I|auto]|]. intros g Hg. apply res_ret, occ_mk_and; auto.
    - intros d1 H1. destruct (is_finite u) eqn:Eu; [|apply res_ret; auto]. apply (res_bind M qF); [apply occ_relm; [apply Hv, orb_true_r|exact I]|]. intros g Hg. apply res_ret, occ_mk_and; auto.
  Qed.
  Lemma q_elim vs : forall (A : var -> Prop) f, occF NB A f -> res (occF NB (fun v => A v /\ ~ (In v vs /\ vty v = BOOLEAN))) (elim_bools fpow n vs f).
  Proof.
    induction vs as [|b vs IH]; intros A f H; cbn [elim_bools].
    - apply res_ret. apply (occF_mono NB f A); auto. intros v Hv. split; auto. intros [[] _].
    - destruct (vtype_eqb (vty b) BOOLEAN) eqn:Tb.
      + assert (Tb' : vty b = BOOLEAN) by (destruct (vty b); auto; discriminate).
        assert (IM : forall g, (forall A', occF NB A' g) -> imgs NB A (fun v => A v /\ v <> b) [] [(b, g)]).
        { intros g Hg. split; intros v Hv Ty; cbn [slookup].
          - split; auto. intros ->. auto.
          - destruct (var_eqb v b) eqn:E; [auto|]. split; auto. intros ->. rewrite (proj2 (var_eqb_eq b b) eq_refl) in E. discriminate. }
        apply (res_bind M (occF NB (fun v => A v /\ v <> b))); [apply (occ_substF M fpow n NB A); auto; apply IM; intros A'; exact I|]. intros f1 H1.
        apply (res_bind M (occF NB (fun v => A v /\ v <> b))); [apply (occ_substF M fpow n NB A); auto; apply IM; intros A'; exact I|]. intros f2 H2.
        intros r t E Ht. specialize (IH (fun v => A v /\ v <> b) (mk_and f1 f2) (occ_mk_and _ _ _ _ H1 H2) r t E Ht).
        apply (occF_mono NB r (fun v => (A v /\ v <> b) /\ ~ (In v vs /\ vty v = BOOLEAN))); auto. intros v [[X1 X2] X3]. split; auto. intros [[->|Y1] Y2]; auto.
      + intros r t E Ht. specialize (IH A f H r t E Ht). apply (occF_mono NB r (fun v => A v /\ ~ (In v vs /\ vty v = BOOLEAN))); auto.
        intros v [X1 X2]. split; auto. intros [[->|Y1] Y2]; auto. rewrite Y2 in Tb. discriminate.
  Qed.
  Lemma q_quant vs dom f s : qF dom -> qF f -> QS s -> res (fun p => qF (fst p) /\ QS (snd p)) (mk_quant fpow n vs dom f s).
  Proof.
    intros Hd Hf Hs. unfold mk_quant. apply (res_bind M (occF NB (fun v => T v /\ ~ (In v vs /\ vty v = BOOLEAN)))); [apply q_elim; auto|]. intros g Hg. apply res_ret. cbn [fst snd].
    split; [|apply QS_same; auto]. assert (Hg' : qF g) by (apply (occF_mono NB g _ T (fun v X => I) Hg)).
    set (q := filter _ vs). assert (Hq : forall v, In v q -> NB v).
    { intros v Hv. unfold q in Hv. apply filter_In in Hv. destruct Hv as [H1 H2]. intros Tb. apply mem_var_In in H2. apply (proj2 (proj2 (occ_fv NB) g _ Hg v H2)). auto. }
    clearbody q. assert (K : qF (mk_forall q (mk_imply dom g))).
    { apply occ_mk_forall; auto. apply (occF_mono NB _ T); [intros v _; left; exact I|]. unfold mk_imply. apply occ_mk_or; auto. apply occ_mk_not; auto. }
    destruct q; auto.
  Qed.
  Lemma q_lets bs : forall s, Forall (fun p => qT (snd p)) bs -> QS s -> res QS (bind_lets fpow n alloc bs s).
  Proof.
    induction bs as [|[x [e|f]] bs IH]; intros s H Hs; cbn [bind_lets]; [apply res_ret; auto| |]; apply Forall_cons_iff in H; destruct H as [H1 H2]; cbn [snd] in H1.
    - pose proof (QS_local x SoReal s Hs) as H3. assert (Tv : vty (fst (declare_local alloc x SoReal s)) <> BOOLEAN) by discriminate.
      destruct (declare_local alloc x SoReal s) as [v s1]. cbn [fst snd] in *.
      apply (res_bind M qF); [apply occ_relm; [split; [exact I|exact Tv]|auto]|]. intros g Hg. apply IH; auto. apply QS_assert; auto.
    - pose proof (QS_local x SoBool s Hs) as H3. assert (Tv : vty (fst (declare_local alloc x SoBool s)) = BOOLEAN) by reflexivity.
      destruct (declare_local alloc x SoBool s) as [v s1]. cbn [fst snd] in *. apply IH; auto. apply QS_assert; auto.
      assert (qF (FVar v)) by (split; [exact I|auto]). apply occ_mk_or; apply occ_mk_and; auto; apply occ_mk_not; auto.
  Qed.
  Lemma q_subst t v a : qT t -> qT a -> (is_form a = true <-> vty v = BOOLEAN) -> res qT (term_subst fpow n t v a).
  Proof.
    intros Ht Ha Ty. destruct a as [e|f]; cbn [is_form] in Ty.
    - assert (IM : imgs NB T T [(v, e)] []).
      { split; intros w _ Tw; cbn [slookup]; [|exact I]. destruct (var_eqb w v); auto. exact I. }
      destruct t; cbn [term_subst]; (apply (res_bind M (occE NB T)) || apply (res_bind M (occF NB T))); try (apply (occ_substE M fpow n NB T); auto); try (apply (occ_substF M fpow n NB T); auto); intros r Hr; apply res_ret; auto.
    - assert (IM : imgs NB T T [] [(v, f)]).
      { split; intros w _ Tw; cbn [slookup]; [exact I|]. destruct (var_eqb w v); auto. exact I. }
      destruct t; cbn [term_subst]; (apply (res_bind M (occE NB T)) || apply (res_bind M (occF NB T))); try (apply (occ_substE M fpow n NB T); auto); try (apply (occ_substF M fpow n NB T); auto); intros r Hr; apply res_ret; auto.
  Qed.
  Lemma q_args ps : forall args t, qT t -> Forall qT args -> res qT (apply_args fpow n t ps args).
  Proof.
    induction ps as [|p ps IH]; intros [|a args] t Ht Ha; cbn [apply_args]; try (apply res_ret; auto). apply Forall_cons_iff in Ha. destruct Ha as [H1 H2].
    destruct (type_ok a (vty p)) eqn:E; [|apply res_throw]. apply (res_bind M qT); [apply q_subst; auto|intros t' Ht'; apply IH; auto].
    unfold type_ok in E. apply eqb_prop in E. rewrite E. destruct (vty p); split; intros X; auto; discriminate.
  Qed.
  Lemma q_fun fd args : qT (fd_body fd) -> Forall qT args -> res qT (apply_fun fpow n fd args).
  Proof. intros H1 H2. unfold apply_fun. destruct (negb _); [apply res_throw|]. destruct (negb _); [apply res_throw|]. apply q_args; auto. Qed.
  Lemma q_form step l : (forall f g, qF f -> qF g -> qF (step f g)) -> Forall qT l -> forall f, qF f -> res qF (fold_form step l f).
  Proof.
    intros Hs. induction 1 as [|t l H1 H2 IH]; intros f Hf; cbn [fold_form]; [apply res_ret; auto|]. apply (res_bind M qF); [apply q_getF; auto|]. intros g Hg. apply IH; auto.
  Qed.
  Lemma q_ari o l : Forall qT l -> forall e, qE e -> res qE (fold_ari fpow n o l e).
  Proof.
    induction 1 as [|t l H1 H2 IH]; intros e He; cbn [fold_ari]; [apply res_ret; auto|]. apply (res_bind M qE); [apply q_getE; auto|]. intros a Ha.
    apply (res_bind M qE); [apply ari_step_occ; auto|]. intros e' He'. apply IH; auto.
  Qed.
  Lemma QS_scope sc s : QS s -> QS (with_scope sc s). Proof. apply QS_same. Qed.
  Definition QT (t : sterm) : Prop := forall s, QS s -> res (fun p => qT (fst p) /\ QS (snd p)) (el t s).
  Lemma q_elabs l : Forall QT l -> forall s, QS s -> res (fun p => Forall qT (fst p) /\ QS (snd p)) (elabs el l s).
  Proof.
    induction 1 as [|t l H1 H2 IH]; intros s Hs; cbn [elabs]; [apply res_ret; split; auto; constructor|]. apply (res_bind M (fun p => qT (fst p) /\ QS (snd p))); [apply H1; auto|]. intros p [P1 P2].
    apply (res_bind M (fun p => Forall qT (fst p) /\ QS (snd p))); [apply IH; auto|]. intros q [Q1 Q2]. apply res_ret. split; auto. constructor; auto.
  Qed.
  Lemma q_binds l : Forall (fun p => QT (snd p)) l -> forall s, QS s -> res (fun p => Forall (fun b => qT (snd b)) (fst p) /\ QS (snd p)) (elab_binds el l s).
  Proof.
    induction 1 as [|[x t] l H1 H2 IH]; intros s Hs; cbn [elab_binds]; [apply res_ret; split; auto; constructor|]. apply (res_bind M (fun p => qT (fst p) /\ QS (snd p))); [apply H1; auto|]. intros p [P1 P2].
    apply (res_bind M (fun p => Forall (fun b => qT (snd b)) (fst p) /\ QS (snd p))); [apply IH; auto|]. intros q [Q1 Q2]. apply res_ret. split; auto. constructor; auto.
  Qed.
  Ltac two := match goal with |- res _ (bind (elab _ _ _ _ _) _) => apply (res_bind M (fun p => qT (fst p) /\ QS (snd p))); [auto|intros ? [? ?]] end.
  Ltac lst := match goal with |- res _ (bind (elabs _ _ _) _) => apply (res_bind M (fun p => Forall qT (fst p) /\ QS (snd p))); [apply q_elabs; auto|intros ? [? ?]] end.
  Ltac gE := match goal with |- res _ (bind (getE _) _) => apply (res_bind M qE); [apply q_getE; auto|intros ? ?] end.
  Ltac gF := match goal with |- res _ (bind (getF _) _) => apply (res_bind M qF); [apply q_getF; auto|intros ? ?] end.
  Theorem q_elab t : QT t.
  Proof.
    induction t using sterm_ind2; intros s Hs; cbn [elab].
    - apply res_ret. split; [exact I|auto].
    - apply res_ret. split; [exact I|auto].
    - destruct (assoc x (d_scope s)) as [v|]; [|apply res_throw]. apply res_ret. split; auto. cbn [fst]. destruct (vty v) eqn:E; (split; [exact I|unfold NB; congruence]).
    - apply res_ret. split; [exact I|auto].
    - apply res_ret. split; [exact I|auto].
    - two. two. destruct (fst a) eqn:Ea, (fst a0) eqn:Eb; try apply res_throw.
      + apply (res_bind M qF); [apply occ_relm; auto|]. intros g Hg. apply res_ret. split; auto.
      + apply res_ret. split; auto. unfold mk_feq. cbn [fst occT] in *. apply occ_mk_and; apply occ_mk_or; auto; apply occ_mk_not; auto.
    - two. two. gE. gE. apply (res_bind M qF); [apply occ_relm; auto|]. intros g Hg. apply res_ret. split; auto.
    - lst. apply (res_bind M qF); [apply q_form; auto; [intros; apply occ_mk_and; auto|exact I]|]. intros g Hg. apply res_ret. split; auto.
    - lst. apply (res_bind M qF); [apply q_form; auto; [intros; apply occ_mk_or; auto|exact I]|]. intros g Hg. apply res_ret. split; auto.
    - lst. apply (res_bind M qF); [apply q_form; auto; [intros; unfold xor_step; apply occ_mk_or; apply occ_mk_and; auto; apply occ_mk_not; auto|exact I]|]. intros g Hg. apply res_ret. split; auto.
    - two. gF. apply res_ret. split; auto. cbn [fst occT]. apply occ_mk_not. auto.
    - two. two. gF. gF. apply res_ret. split; auto. cbn [fst occT]. apply occ_mk_or; auto. apply occ_mk_not. auto.
    - two. two. two. gF. destruct (fst a0) eqn:Ea, (fst a1) eqn:Eb; try apply res_throw; apply res_ret; (split; [|auto]); cbn [fst occT] in *.
      + apply occ_mk_ite; auto.
      + apply occ_mk_and; apply occ_mk_or; auto. apply occ_mk_not. auto.
    - pose proof (QS_binders bs s Hs) as Hb. destruct (reg_binders alloc bs s) as [q s1]. cbn [snd] in Hb. apply (res_bind M qF); [apply q_domain|]. intros dom Hd. two. gF.
      apply (res_bind M (fun p => qF (fst p) /\ QS (snd p))); [apply q_quant; auto|]. intros r [R1 R2]. apply res_ret. split; [auto|apply QS_scope; auto].
    - apply (res_bind M (fun p => Forall (fun b => qT (snd b)) (fst p) /\ QS (snd p))); [apply q_binds; auto|].
      { clear - H. induction bs as [|[x b] bs IH]; constructor; cbn [map snd] in H; apply Forall_cons_iff in H; destruct H; auto. }
      intros p [P1 P2]. apply (res_bind M QS); [apply q_lets; auto; apply Forall_rev; auto|]. intros s1 H1. two. apply res_ret. split; [auto|apply QS_scope; auto].
    - two. gE. apply (res_bind M qE); [apply occ_neg; auto|]. intros e He. apply res_ret. split; auto.
    - two. lst. destruct (fst a0) as [|b l'] eqn:El; [apply res_ret; split; auto|]. gE. apply (res_bind M qE); [apply q_ari; auto|]. intros e He. apply res_ret. split; auto.
    - two. gE. apply (res_bind M qE); [apply occ_un; auto|]. intros e He. apply res_ret. split; auto.
    - two. two. gE. gE. apply (res_bind M qE); [apply occ_bin; auto|]. intros e He. apply res_ret. split; auto.
    - lst. destruct (assoc f (d_funs (snd a))) as [fd|] eqn:Ef; [|apply res_throw]. apply (res_bind M qT); [apply q_fun; auto; match goal with H : QS (snd a) |- _ => destruct H as [_ Hf] end; apply (Hf f); now apply assoc_In|].
      intros t' Ht'. apply res_ret. split; auto.
  Qed.
  Lemma QS_emits k o : (forall f, o <> OAssert f) -> forall s, QS s -> QS (emits k o s).
  Proof. intros N. induction k as [|k IH]; intros s H; cbn [emits]; auto. apply IH. apply QS_ops; auto. Qed.
  Lemma q_command c s : QS s -> res QS (command fpow n alloc c s).
  Proof.
    intros Hs. destruct c as [x so bd|f ps so t|t|k|k|k]; cbn [command].
    - apply res_ret, QS_decl, Hs.
    - pose proof (QS_params ps s Hs) as Hp. destruct (reg_params alloc ps s) as [vs s1]. cbn [snd] in Hp.
      apply (res_bind M (fun p => qT (fst p) /\ QS (snd p))); [apply q_elab; auto|]. intros p [P1 P2]. destruct vs as [|v0 vs].
      + pose proof (QS_decl f so None (with_scope (d_scope s) (snd p)) (QS_scope _ _ P2)) as H3. destruct (declare_var alloc f so None _) as [v s3]. cbn [snd] in H3.
        destruct (type_ok (fst p) (vty v)) eqn:Ty; cbn [negb]; [|apply res_throw]. destruct (fst p) as [e|g]; cbn [occT] in P1; unfold type_ok in Ty; cbn [is_form] in Ty.
        * apply (res_bind M qF); [apply occ_relm; auto; split; [exact I|]; intros X; rewrite X in Ty; discriminate|]. intros g Hg. apply res_ret, QS_assert; auto.
        * apply res_ret, QS_assert; auto. assert (qF (FVar v)) by (split; [exact I|destruct (vty v); auto; discriminate]).
          unfold mk_feq. apply occ_mk_and; apply occ_mk_or; auto; apply occ_mk_not; auto.
      + apply res_ret. destruct P2 as [A1 A2]. split; cbn [d_ops d_funs with_scope]; auto. intros h fd [X|X]; [injection X as _ <-; auto|apply (A2 h fd X)].
    - apply (res_bind M (fun p => qT (fst p) /\ QS (snd p))); [apply q_elab; auto|]. intros p [P1 P2]. gF. apply res_ret, QS_assert; auto.
    - destruct (Nat.eqb k 0); [apply res_throw|]. apply res_ret, QS_emits; [discriminate|auto].
    - destruct (Nat.eqb k 0); [apply res_throw|]. apply res_ret, QS_emits; [discriminate|auto].
    - apply res_ret, QS_ops; [auto|discriminate].
  Qed.
  Theorem no_bool_bound cs s tr : script fpow n alloc cs drv0 = (Val s, tr) -> ok tr -> forall f v, In (OAssert f) (rev (d_ops s)) -> In v (boundF f) -> vty v <> BOOLEAN.
  Proof.
    intros E Ht. assert (H : QS s).
    { assert (K : forall cs s0, QS s0 -> res QS (script fpow n alloc cs s0)).
      { clear. induction cs as [|c cs IH]; intros s0 H; cbn [script]; [apply res_ret; auto|]. apply (res_bind M QS); [apply q_command; auto|]. intros s1 H1. apply IH; auto. }
      apply (K cs drv0) with (t := tr); auto. split; intros ? ?; intros; contradiction. }
    intros f v Hf. apply in_rev in Hf. apply (proj2 (occ_binds NB) f T). apply H, Hf.
  Qed.
End NoBool.
