(** * The SAT/theory loop *)
From Coq Require Import ZArith Reals List Bool Arith Lia.
From Verif Require Import Dbl Syntax Sem SemProofs FormulaCons FormulaConsProofs SpecForm PredAbs PredAbsProofs Tseitin Scoped SpecScoped ScopedProofs Interval IEval Contr Icp Filter Theory IteElim Sat Context CtxStruct SatSem.
Import ListNotations.

Lemma theory_literal_in s v at_ : theory_literal s v = Some at_ -> In (v, at_) (ss_pa s).
Proof.
  unfold theory_literal. destruct (List.find _ (ss_pa s)) as [[w f]|] eqn:E; cbn [option_map snd]; [|discriminate]. intros [= <-].
  apply find_some in E. destruct E as [E1 E2]. apply var_eqb_eq in E2. cbn [fst] in E2. now subst.
Qed.
Lemma in_pa_iff s v : in_pa s v = true <-> exists at_, theory_literal s v = Some at_.
Proof.
  unfold in_pa, theory_literal. induction (ss_pa s) as [|[w f] m IH]; cbn [existsb List.find fst]; [split; [discriminate|intros [? [=]]]|].
  destruct (var_eqb v w); cbn [orb option_map snd]; [split; eauto|exact IH].
Qed.
Lemma theory_lits_spec s tm : forall fs, theory_lits s tm = Some fs ->
  Forall2 (fun p f => exists at_, theory_literal s (fst p) = Some at_ /\ f = if (snd p : bool) then at_ else mk_not at_) tm fs.
Proof.
  induction tm as [|[v val] tm IH]; intros fs E; cbn [theory_lits] in E; [injection E as <-; constructor|].
  destruct (theory_literal s v) as [a|] eqn:Ea; cbn [bind] in E; [|discriminate]. destruct (theory_lits s tm) as [r|]; cbn [bind] in E; [|discriminate]. injection E as <-.
  constructor; auto. exists a. auto.
Qed.
Lemma theory_lits_total s tm : (forall v val, In (v, val) tm -> in_pa s v = true) -> exists fs, theory_lits s tm = Some fs.
Proof.
  induction tm as [|[v val] tm IH]; intros H; cbn [theory_lits]; [eauto|].
  destruct (proj1 (in_pa_iff s v) (H v val (or_introl eq_refl))) as [a Ea]. rewrite Ea. cbn [bind].
  destruct IH as [r Er]; [intros; eapply H; right; eauto|]. rewrite Er. cbn [bind]. eauto.
Qed.

(** The theory literals an assignment makes true. *)
Definition assigned (s : satst) (a : nat -> option bool) (f : formula) : Prop :=
  exists v k val at_, sat_of s v = Some k /\ theory_literal s v = Some at_ /\ a k = Some val /\ f = if (val : bool) then at_ else mk_not at_.

Lemma theory_lits_assigned s a bm tm fs : sat_inv s -> sat_model s a = (bm, tm) -> theory_lits s tm = Some fs ->
  forall f, In f fs <-> assigned s a f.
Proof.
  intros I Em Ef f. destruct (sat_model_spec s a bm tm I Em) as [A _]. apply theory_lits_spec in Ef. split.
  - intros Hf. destruct (Forall2_In_r _ _ _ _ Ef Hf) as ([v val] & Hp & at_ & E1 & E2). cbn [fst snd] in *.
    apply A in Hp. destruct Hp as (i & H1 & H2 & _). exists v, i, val, at_. auto.
  - intros (v & k & val & at_ & H1 & H2 & H3 & ->).
    assert (Hp : In (v, val) tm). { apply A. exists k. split; [exact H3|]. split; [exact H1|]. apply in_pa_iff. eauto. }
    destruct (Forall2_In_l _ _ _ _ Ef Hp) as (g & Hg & at' & E1 & ->). cbn [fst snd] in *. rewrite H2 in E1. injection E1 as <-. exact Hg.
Qed.

Section Learn.
  Variable fold : expr -> expr -> option dbl.
  Lemma key_not f : abs_key fold f -> mk_not f = FNot f.
  Proof. intros [(a & b & -> & _)|[(a & b & -> & _)|[(a & b & -> & _)|(vs & g & ->)]]]; reflexivity. Qed.
  Lemma not_nokey f : ~ abs_key fold (FNot f).
  Proof. intros [(a & b & E & _)|[(a & b & E & _)|[(a & b & E & _)|(vs & g & E)]]]; discriminate. Qed.
  Lemma pa_visit_atom s v at_ : pa_ok fold s -> In (v, at_) (pa_map s) -> pa_visit fold at_ s = (FVar v, s).
  Proof. intros K H. pose proof (pa_find_in fold s v at_ K H) as E. destruct at_; cbn [pa_visit]; rewrite E; reflexivity. Qed.
  Lemma pa_visit_natom s v at_ : pa_ok fold s -> In (v, at_) (pa_map s) -> pa_visit fold (FNot at_) s = (FNot (FVar v), s).
  Proof.
    intros K H. cbn [pa_visit]. rewrite (pa_find_nokey fold s _ K (not_nokey at_)). rewrite (pa_visit_atom s v at_ K H). reflexivity.
  Qed.
  (** The learned clause consists of the complements of the explanation's literals. *)
  Definition neg_lit (s : satst) (f : formula) (l : plit) : Prop :=
    exists v at_, sat_of s v = Some (fst l) /\ theory_literal s v = Some at_ /\ f = if snd l then mk_not at_ else at_.
  Lemma learn_smap (s : satst) nx E : pa_ok fold {| pa_next := nx; pa_map := ss_pa s |} -> forall a, (forall f, In f E -> assigned s a f) ->
    exists gs L, smap (pa_convert fold) E {| pa_next := nx; pa_map := ss_pa s |} = (gs, {| pa_next := nx; pa_map := ss_pa s |}) /\
      lits_of s (map mk_not gs) = Some L /\ Forall2 (neg_lit s) E L /\ (forall l, In l L -> a (fst l) = Some (negb (snd l))).
  Proof.
    intros K a. induction E as [|f E IH]; intros H; cbn [smap].
    { exists [], []. split; [reflexivity|]. split; [reflexivity|]. split; [constructor|intros ? []]. }
    destruct (H f (or_introl eq_refl)) as (v & k & val & at_ & H1 & H2 & H3 & ->).
    pose proof (theory_literal_in _ _ _ H2) as Hin. pose proof (pk_key _ _ K v at_ Hin) as Hk.
    destruct IH as (gs & L & Es & El & F2 & Ha); [intros; apply H; right; assumption|].
    assert (Ev : pa_convert fold (if val then at_ else mk_not at_) {| pa_next := nx; pa_map := ss_pa s |} = ((if val then FVar v else FNot (FVar v)), {| pa_next := nx; pa_map := ss_pa s |})).
    { unfold pa_convert. destruct val; [apply (pa_visit_atom _ v at_ K Hin)|]. rewrite (key_not at_ Hk). apply (pa_visit_natom _ v at_ K Hin). }
    rewrite Ev, Es. eexists. exists ((k, negb val) :: L). split; [reflexivity|]. split; [|split].
    - cbn [map lits_of]. assert (X : lit_of s (mk_not (if val then FVar v else FNot (FVar v))) = Some (k, negb val)) by (destruct val; cbn [mk_not lit_of]; rewrite H1; reflexivity).
      rewrite X. cbn [bind]. rewrite El. reflexivity.
    - constructor; auto. exists v, at_. cbn [fst snd]. split; [exact H1|]. split; [exact H2|]. destruct val; reflexivity.
    - intros l [<-|Hl]; [cbn [fst snd]; rewrite negb_involutive; exact H3|auto].
  Qed.
  Lemma learn_spec (s : satst) nx E a : pa_ok fold {| pa_next := nx; pa_map := ss_pa s |} -> (forall f, In f E -> assigned s a f) ->
    exists L, sat_learn fold E nx s = Some (with_clause L s, nx) /\ Forall2 (neg_lit s) E L /\ (forall l, In l L -> a (fst l) = Some (negb (snd l))).
  Proof.
    intros K H. destruct (learn_smap s nx E K a H) as (gs & L & Es & El & F2 & Ha). exists L. split; [|auto].
    unfold sat_learn. rewrite Es. cbn [pa_map pa_next]. assert (W : with_pa (ss_pa s) s = s) by (destruct s; reflexivity). rewrite W, El. reflexivity.
  Qed.
  Lemma neg_lit_sym s E L : sat_inv s -> Forall2 (neg_lit s) E L -> forall l, In l L -> exists v, sym_of s (fst l) = Some v.
  Proof. intros I F l Hl. destruct (Forall2_In_r _ _ _ _ F Hl) as (f & _ & v & at_ & H & _). exists v. apply (iv_sat s I). exact H. Qed.
End Learn.

Section Loop.
  Variable fold : expr -> expr -> option dbl.
  Variable pico : pico_t.
  Variable T : nat -> box -> list formula -> option tres.
  Hypothesis P_ok : pico_ok pico.
  Hypothesis T_sub : forall t b fs E, T t b fs = Some (TUnsat E) -> incl E fs.
  Notation loop := (core_loop fold pico T).
  Definition sok (s : satst) (nx : nat) : Prop := sat_inv s /\ pa_ok fold {| pa_next := nx; pa_map := ss_pa s |}.

  (** One round of the loop. *)
  Inductive round (b : box) (s : satst) (nx t : nat) : option (option box * satst * nat * nat) + (box * satst) -> Prop :=
  | rd_unknown : pico t (ss_popped s) (sv_vec (ss_clauses s)) (ss_max s) = PUnknown -> round b s nx t (inl None)
  | rd_unsat : pico t (ss_popped s) (sv_vec (ss_clauses s)) (ss_max s) = PUnsat -> round b s nx t (inl (Some (None, s, nx, S t)))
  | rd_nothy a bm : pico t (ss_popped s) (sv_vec (ss_clauses s)) (ss_max s) = PSat a -> sat_model s a = (bm, []) ->
      (forall f, ~ assigned s a f) -> round b s nx t (inl (Some (Some (set_bools bm b), s, nx, S t)))
  | rd_throw a bm tm fs : pico t (ss_popped s) (sv_vec (ss_clauses s)) (ss_max s) = PSat a -> sat_model s a = (bm, tm) ->
      theory_lits s tm = Some fs -> T t (set_bools bm b) fs = None -> round b s nx t (inl None)
  | rd_sat a bm tm fs m : pico t (ss_popped s) (sv_vec (ss_clauses s)) (ss_max s) = PSat a -> sat_model s a = (bm, tm) ->
      theory_lits s tm = Some fs -> T t (set_bools bm b) fs = Some (TSat m) -> round b s nx t (inl (Some (Some m, s, nx, S t)))
  | rd_learn a bm tm fs E L : pico t (ss_popped s) (sv_vec (ss_clauses s)) (ss_max s) = PSat a -> sat_model s a = (bm, tm) ->
      theory_lits s tm = Some fs -> T t (set_bools bm b) fs = Some (TUnsat E) -> Forall2 (neg_lit s) E L ->
      (forall l, In l L -> a (fst l) = Some (negb (snd l))) -> round b s nx t (inr (set_bools bm b, with_clause L s)).
  Lemma round_ex b s nx t : sok s nx -> exists r, round b s nx t r /\
    forall n, loop (S n) b s nx t = match r with inl o => o | inr (b1, s1) => loop n b1 s1 nx (S t) end.
  Proof.
    intros [I K]. destruct (pico t (ss_popped s) (sv_vec (ss_clauses s)) (ss_max s)) as [a| |] eqn:Ep.
    - destruct (sat_model s a) as [bm tm] eqn:Em. destruct tm as [|p tm].
      + eexists. split; [eapply (rd_nothy b s nx t a bm Ep Em)|intros n; cbn [core_loop]; rewrite Ep, Em; reflexivity].
        intros f Hf. apply (theory_lits_assigned s a bm [] [] I Em eq_refl f) in Hf. exact Hf.
      + destruct (sat_model_spec s a bm (p :: tm) I Em) as [A _].
        destruct (theory_lits_total s (p :: tm)) as [fs Ef]; [intros v val Hp; apply A in Hp; destruct Hp as (i & _ & _ & H); exact H|].
        destruct (T t (set_bools bm b) fs) as [[m|E]|] eqn:Et.
        * eexists. split; [eapply (rd_sat b s nx t a bm _ fs m Ep Em Ef Et)|intros n; cbn [core_loop]; rewrite Ep, Em, Ef; cbn [bind]; rewrite Et; reflexivity].
        * destruct (learn_spec fold s nx E a K) as (L & EL & F2 & Ha).
          { intros f Hf. apply (theory_lits_assigned s a bm _ fs I Em Ef). exact (T_sub _ _ _ _ Et f Hf). }
          eexists. split; [eapply (rd_learn b s nx t a bm _ fs E L Ep Em Ef Et F2 Ha)|intros n; cbn [core_loop]; rewrite Ep, Em, Ef; cbn [bind]; rewrite Et; cbn [bind]; rewrite EL; reflexivity].
        * eexists. split; [eapply (rd_throw b s nx t a bm _ fs Ep Em Ef Et)|intros n; cbn [core_loop]; rewrite Ep, Em, Ef; cbn [bind]; rewrite Et; reflexivity].
    - eexists. split; [apply rd_unsat; exact Ep|intros n; cbn [core_loop]; rewrite Ep; reflexivity].
    - eexists. split; [apply rd_unknown; exact Ep|intros n; cbn [core_loop]; rewrite Ep; reflexivity].
  Qed.
  Lemma learned_ok s nx E L : sok s nx -> Forall2 (neg_lit s) E L -> sok (with_clause L s) nx.
  Proof. intros [I K] F. split; [|exact K]. apply with_clause_inv; [exact I|]. eapply neg_lit_sym; eauto. Qed.

  Definition sat_by (a : nat -> bool) (s : satst) : Prop := forall L, In L (sv_vec (ss_clauses s)) -> exists l, In l L /\ a (fst l) = snd l.
  Lemma loop_unsat n : forall b s nx t s' nx' t', sok s nx -> loop n b s nx t = Some (None, s', nx', t') ->
    forall a, sat_by a s -> exists t0 b0 fs E, T t0 b0 fs = Some (TUnsat E) /\ forall f, In f E -> assigned s (fun k => Some (a k)) f.
  Proof.
    induction n as [|n IH]; intros b s nx t s' nx' t' HI E a Ha; [discriminate|].
    destruct (round_ex b s nx t HI) as (r & R & Er). rewrite Er in E. destruct R; cbn beta iota in E; try discriminate.
    - injection E as <- <- <-. exfalso. pose proof (P_ok t (ss_popped s) (sv_vec (ss_clauses s)) (ss_max s)) as P. rewrite H in P. apply P. exists a. exact Ha.
    - destruct (existsb (fun l : plit => Bool.eqb (a (fst l)) (snd l)) L) eqn:X.
      + assert (Ha' : sat_by a (with_clause L s)).
        { intros L' HL. cbn [with_clause ss_clauses sv_push_back sv_vec] in HL. apply in_app_or in HL. destruct HL as [HL|[<-|[]]]; [exact (Ha L' HL)|].
          apply existsb_exists in X. destruct X as (l & Hl & El). exists l. split; [exact Hl|]. apply Bool.eqb_prop. exact El. }
        exact (IH _ _ _ _ _ _ _ (learned_ok s nx E0 L HI H3) E a Ha').
      + exists t, (set_bools bm b), fs, E0. split; [exact H2|]. intros f Hf. destruct (Forall2_In_l _ _ _ _ H3 Hf) as (l & Hl & v & at_ & V1 & V2 & ->).
        exists v, (fst l), (negb (snd l)), at_. split; [exact V1|]. split; [exact V2|]. split; [|destruct (snd l); reflexivity].
        f_equal. destruct (Bool.eqb (a (fst l)) (snd l)) eqn:Y; [|destruct (a (fst l)), (snd l); try reflexivity; discriminate].
        exfalso. assert (existsb (fun l : plit => Bool.eqb (a (fst l)) (snd l)) L = true) by (apply existsb_exists; eauto). congruence.
  Qed.
  Lemma loop_sat n : forall b s nx t m s' nx' t', sok s nx -> loop n b s nx t = Some (Some m, s', nx', t') ->
    exists a, (forall L, In L (sv_vec (ss_clauses s')) -> clause_sat a L) /\ incl (sv_vec (ss_clauses s)) (sv_vec (ss_clauses s')) /\
      ((forall f, ~ assigned s a f) \/
       exists t0 b0 fs, T t0 b0 fs = Some (TSat m) /\ forall f, In f fs <-> assigned s a f).
  Proof.
    induction n as [|n IH]; intros b s nx t m s' nx' t' HI E; [discriminate|].
    destruct (round_ex b s nx t HI) as (r & R & Er). rewrite Er in E. destruct R; cbn beta iota in E; try discriminate;
      try (pose proof (P_ok t (ss_popped s) (sv_vec (ss_clauses s)) (ss_max s)) as P; rewrite H in P).
    - injection E as <- <- <- <-. exists a. split; [exact P|]. split; [apply incl_refl|]. left. exact H1.
    - injection E as <- <- <- <-. exists a. split; [exact P|]. split; [apply incl_refl|]. right. exists t, (set_bools bm b), fs. split; [exact H2|].
      apply (theory_lits_assigned s a bm tm fs (proj1 HI) H0 H1).
    - destruct (IH _ _ _ _ _ _ _ _ (learned_ok s nx E0 L HI H3) E) as (a' & A1 & A2 & A3). exists a'. split; [exact A1|].
      split; [|exact A3]. intros L' HL. apply A2. cbn [with_clause ss_clauses sv_push_back sv_vec]. apply in_or_app. left. exact HL.
  Qed.
  (** The assignments tried, with the clauses learned from them. *)
  Lemma loop_excl n : forall b s nx t ob s' nx' t', sok s nx -> loop n b s nx t = Some (ob, s', nx', t') ->
    exists tried learned, sv_vec (ss_clauses s') = sv_vec (ss_clauses s) ++ learned /\
      Forall2 (fun a L => forall l, In l L -> a (fst l) = Some (negb (snd l))) tried learned /\
      Forall (fun a => forall L, In L (sv_vec (ss_clauses s)) -> clause_sat a L) tried /\
      (forall i j a a', i < j -> nth_error tried i = Some a -> nth_error tried j = Some a' -> exists k, 1 <= k <= ss_max s /\ a k <> a' k).
  Proof.
    induction n as [|n IH]; intros b s nx t ob s' nx' t' HI E; [discriminate|].
    destruct (round_ex b s nx t HI) as (r & R & Er). rewrite Er in E.
    assert (Z : forall s0, sv_vec (ss_clauses s0) = sv_vec (ss_clauses s) -> exists (tried : list (nat -> option bool)) learned, sv_vec (ss_clauses s0) = sv_vec (ss_clauses s) ++ learned /\
      Forall2 (fun a L => forall l : plit, In l L -> a (fst l) = Some (negb (snd l))) tried learned /\
      Forall (fun a => forall L, In L (sv_vec (ss_clauses s)) -> clause_sat a L) tried /\
      (forall i j a a', i < j -> nth_error tried i = Some a -> nth_error tried j = Some a' -> exists k, 1 <= k <= ss_max s /\ a k <> a' k)).
    { intros s0 E0. exists [], []. rewrite app_nil_r. split; [exact E0|]. split; [constructor|]. split; [constructor|]. intros [|i] j a a' _ X; discriminate X. }
    destruct R; cbn beta iota in E; try discriminate; try (injection E as <- <- <- <-; apply Z; reflexivity).
    destruct (IH _ _ _ _ _ _ _ _ (learned_ok s nx E0 L HI H3) E) as (tried & learned & A1 & A2 & A3 & A4).
    pose proof (P_ok t (ss_popped s) (sv_vec (ss_clauses s)) (ss_max s)) as P; rewrite H in P.
    exists (a :: tried), (L :: learned). cbn [with_clause ss_clauses sv_push_back sv_vec ss_max] in *.
    split; [rewrite A1, <- app_assoc; reflexivity|]. split; [constructor; auto|]. split.
    { constructor; [exact P|]. eapply Forall_impl; [|exact A3]. intros a' Q L' HL. apply Q. apply in_or_app. left. exact HL. }
    intros i j a1 a2 Lt X1 X2. destruct i as [|i]; destruct j as [|j]; try lia; cbn [nth_error] in X1, X2; [|apply (A4 i j a1 a2); auto; lia].
    injection X1 as <-. rewrite Forall_forall in A3. destruct (A3 a2 (nth_error_In _ _ X2) L) as (l & Hl & El); [apply in_or_app; right; left; reflexivity|].
    exists (fst l). destruct (neg_lit_sym s E0 L (proj1 HI) H3 l Hl) as [v Hv]. apply (iv_sym s (proj1 HI)) in Hv.
    split; [apply (iv_sat s (proj1 HI) v); exact Hv|]. rewrite (H4 l Hl). unfold lit_sat in El. rewrite El. destruct (snd l); discriminate.
  Qed.

  (** ** Termination *)
  Fixpoint alls (n : nat) : list (list (option bool)) :=
    match n with 0 => [[]] | S m => flat_map (fun l => [None :: l; Some true :: l; Some false :: l]) (alls m) end.
  Lemma alls_len n : length (alls n) = 3 ^ n.
  Proof.
    induction n as [|n IH]; [reflexivity|]. cbn [alls]. assert (X : forall ls, length (flat_map (fun l : list (option bool) => [None :: l; Some true :: l; Some false :: l]) ls) = 3 * length ls).
    { induction ls as [|l ls IHl]; [reflexivity|]. cbn [flat_map app length]. rewrite IHl. lia. }
    rewrite X, IH. cbn [Nat.pow]. lia.
  Qed.
  Lemma alls_in n l : length l = n -> In l (alls n).
  Proof.
    revert l. induction n as [|n IH]; intros [|x l] E; try discriminate; [left; reflexivity|]. cbn [alls]. apply in_flat_map. exists l.
    split; [apply IH; cbn [length] in E; lia|]. destruct x as [[|]|]; cbn [In]; auto.
  Qed.
  Definition restr (m : nat) (a : nat -> option bool) : list (option bool) := map a (seq 1 m).
  Lemma restr_eq m a a' k : restr m a = restr m a' -> 1 <= k <= m -> a k = a' k.
  Proof. intros E H. apply (f_equal (fun l => nth_error l (k - 1))) in E. unfold restr in E. rewrite !nth_error_map in E.
    assert (X : nth_error (seq 1 m) (k - 1) = Some k). { rewrite (nth_error_nth' _ 0) by (rewrite seq_length; lia). rewrite seq_nth by lia. f_equal; lia. }
    rewrite X in E. cbn [option_map] in E. congruence. Qed.
  Lemma loop_fuel m : forall b s nx t old, sok s nx -> NoDup old -> (forall o, In o old -> length o = ss_max s) ->
    (forall a, (forall L, In L (sv_vec (ss_clauses s)) -> clause_sat a L) -> ~ In (restr (ss_max s) a) old) ->
    3 ^ ss_max s - length old <= m -> forall k k', m <= k -> m <= k' -> loop (S k) b s nx t = loop (S k') b s nx t.
  Proof.
    induction m as [|m IH]; intros b s nx t old HI ND Len Ex Hm k k' Hk Hk'; destruct (round_ex b s nx t HI) as (r & R & Er); rewrite !Er; destruct R; auto.
    - exfalso. pose proof (P_ok t (ss_popped s) (sv_vec (ss_clauses s)) (ss_max s)) as P; rewrite H in P.
      assert (X : length (restr (ss_max s) a :: old) <= length (alls (ss_max s))).
      { apply NoDup_incl_length; [constructor; [exact (Ex a P)|exact ND]|]. intros o [<-|Ho]; apply alls_in; [unfold restr; rewrite map_length, seq_length; reflexivity|auto]. }
      rewrite alls_len in X. cbn [length] in X. lia.
    - pose proof (P_ok t (ss_popped s) (sv_vec (ss_clauses s)) (ss_max s)) as P; rewrite H in P.
      destruct k as [|k]; [lia|]. destruct k' as [|k']; [lia|].
      apply (IH (set_bools bm b) (with_clause L s) nx (S t) (restr (ss_max s) a :: old)); try lia.
      + exact (learned_ok s nx E L HI H3).
      + constructor; [exact (Ex a P)|exact ND].
      + intros o [<-|Ho]; [unfold restr; rewrite map_length, seq_length; reflexivity|auto].
      + intros a' Ha' [X|X].
        * cbn [with_clause ss_clauses sv_push_back sv_vec ss_max] in *. destruct (Ha' L) as (l & Hl & El); [apply in_or_app; right; left; reflexivity|].
          destruct (neg_lit_sym s E L (proj1 HI) H3 l Hl) as [v Hv]. apply (iv_sym s (proj1 HI)) in Hv.
          pose proof (restr_eq _ _ _ (fst l) X (proj1 (iv_sat s (proj1 HI) v _ Hv))) as Y. rewrite (H4 l Hl) in Y. unfold lit_sat in El. rewrite El in Y. destruct (snd l); discriminate.
        * apply (Ex a'); [|exact X]. intros L' HL. apply Ha'. cbn [with_clause ss_clauses sv_push_back sv_vec]. apply in_or_app. left. exact HL.
      + cbn [with_clause ss_max length]. lia.
  Qed.
  Lemma loop_terminates b s nx t n : sok s nx -> S (3 ^ ss_max s) <= n -> loop n b s nx t = loop (S (3 ^ ss_max s)) b s nx t.
  Proof.
    intros HI Hn. destruct n as [|n]; [lia|]. apply (loop_fuel (3 ^ ss_max s) b s nx t []); [exact HI|apply NoDup_nil|intros ? []|intros ? ? []|cbn [length]; lia|lia|lia].
  Qed.
End Loop.
