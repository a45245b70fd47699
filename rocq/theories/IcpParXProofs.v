(** What exceptions do to the parallel search. *)
From Coq Require Import ZArith Reals Lia List Bool Classical.
From Flocq Require Import IEEE754.BinarySingleNaN.
From Verif Require Import Dbl Syntax Sem Interval IntervalProofs MathConv IEval Contr ContrProofs Icp IcpProofs IcpTop IcpPar IcpParProofs IcpParTop IcpParX.
Import ListNotations.

Lemma mem_In i l : mem i l = true <-> In i l.
Proof.
  unfold mem. rewrite existsb_exists. split; [intros (x & H & E); apply Nat.eqb_eq in E; subst; auto|intros H; exists i; split; auto; apply Nat.eqb_refl].
Qed.
Lemma mem_not i l : mem i l = false <-> ~ In i l.
Proof. rewrite <- mem_In. destruct (mem i l); split; congruence. Qed.

Lemma some_inj {A} (a b : A) : Some a = Some b -> a = b.
Proof. congruence. Qed.

Section Proofs.
  Variable pr : cstat -> option cstat.
  Variable ev : formula -> box -> option (etype * ival).
  Variable mid : dbl -> dbl -> dbl.
  Variable precision : dbl.
  Variable fs : list formula.
  Variable lf : bool.
  Variable check : bool.
  Variable jobs : nat.
  Hypothesis J : jobs <> 0.
  Notation pstep := (par_step pr ev mid precision fs).
  Notation prun := (par_run pr ev mid precision fs).
  Notation last := (last_index jobs).
  Notation xst := (xstep pr ev mid precision fs check jobs).
  Notation xrn := (xrun pr ev mid precision fs check jobs).

  Lemma prun_app a b st : prun (a ++ b) st = bind (prun a st) (prun b).
  Proof. revert st. induction a as [|i a IH]; intros st; [reflexivity|]. cbn [app par_run]. destruct (pstep st i); cbn [bind]; auto. Qed.
  Lemma prun_snoc a i st : prun (a ++ [i]) st = bind (prun a st) (fun st => pstep st i).
  Proof. rewrite prun_app. destruct (prun a st) as [t|]; cbn [bind par_run]; auto. destruct (pstep t i); auto. Qed.
  Lemma step_len st i st' : pstep st i = Some st' -> length (p_ws st') = length (p_ws st).
  Proof.
    unfold par_step, set_w, goto. intros E. destruct (nth_error (p_ws st) i) as [w|]; [|congruence].
    destruct (w_pc w); cbn [bind] in E.
    all: try (destruct (p_stack st)); try (destruct (icp_step _ _ _ _ _ _) as [o|]; cbn [bind] in E; [|discriminate]).
    all: apply some_inj in E; subst st'; cbn [p_ws]; rewrite ?upd_nth_length; reflexivity.
  Qed.
  Lemma step_other st i st' j : pstep st i = Some st' -> j <> i -> nth_error (p_ws st') j = nth_error (p_ws st) j.
  Proof.
    unfold par_step, set_w, goto. intros E N. destruct (nth_error (p_ws st) i) as [w|]; [|congruence].
    destruct (w_pc w); cbn [bind] in E.
    all: try (destruct (p_stack st)); try (destruct (icp_step _ _ _ _ _ _) as [o|]; cbn [bind] in E; [|discriminate]).
    all: apply some_inj in E; subst st'; cbn [p_ws]; auto; apply nth_error_upd_ne; auto.
  Qed.
  Lemma run_len sched : forall st st', prun sched st = Some st' -> length (p_ws st') = length (p_ws st).
  Proof.
    induction sched as [|i s IH]; intros st st' E; cbn [par_run] in E; [congruence|]. destruct (pstep st i) as [t|] eqn:Es; cbn [bind] in E; [|discriminate].
    rewrite (IH _ _ E). eapply step_len; eauto.
  Qed.
  Lemma reach_len s sched st : prun sched (par_init lf jobs s) = Some st -> length (p_ws st) = jobs.
  Proof. intros E. rewrite (run_len _ _ _ E). cbn [par_init p_ws]. apply repeat_length. Qed.

  Definition isdone (st : pstate) (j : nat) : Prop := exists w, nth_error (p_ws st) j = Some w /\ done (w_pc w) = true.
  Definition inv (s0 : cstat) (x : xstate) : Prop :=
    (exists sched, prun sched (par_init lf jobs s0) = Some (x_st x)) /\
    (forall i, In i (x_thrown x) -> exists w, nth_error (p_ws (x_st x)) i = Some w /\ (w_pc w = PWork \/ w_pc w = PCount)) /\
    match x_caller x with
    | Collecting k => ~ In last (x_thrown x) /\ k <= last /\ (forall j, j < k -> isdone (x_st x) j) /\ (0 < k -> isdone (x_st x) last)
    | Answered r s => (forall j, j < jobs -> isdone (x_st x) j) /\ par_result (x_st x) s0 = Some (r, s)
    | Raised => In last (x_thrown x) \/ isdone (x_st x) last
    end.

  Lemma inv_init s0 : inv s0 (xinit lf jobs s0).
  Proof. split; [exists []; reflexivity|]. split; [intros i []|]. cbn [x_caller xinit x_thrown]. split; [tauto|]. split; [lia|]. split; intros; lia. Qed.
  Lemma thrown_not_done s0 x i : inv s0 x -> In i (x_thrown x) -> ~ isdone (x_st x) i.
  Proof. intros (_ & T & _) H (w & Hw & D). destruct (T i H) as (w' & Hw' & P). rewrite Hw in Hw'. assert (w = w') by congruence. subst w'. destruct P as [P|P]; rewrite P in D; discriminate. Qed.
  Lemma done_not_thrown s0 x i w : inv s0 x -> nth_error (p_ws (x_st x)) i = Some w -> done (w_pc w) = true -> ~ In i (x_thrown x).
  Proof. intros I H D T. eapply thrown_not_done; eauto. exists w. auto. Qed.

  Lemma inv_throw s0 x i w : inv s0 x -> nth_error (p_ws (x_st x)) i = Some w -> (w_pc w = PWork \/ w_pc w = PCount) -> inv s0 (throw jobs x i).
  Proof.
    intros I Hw P. pose proof I as (R & T & C). split; [exact R|]. split.
    - intros j [<-|Hj]; cbn [x_st throw]; eauto.
    - cbn [x_caller throw]. destruct (Nat.eqb_spec i last) as [->|N].
      + left. cbn [x_thrown throw In]. auto.
      + cbn [x_thrown throw x_st]. destruct (x_caller x) as [k|r s|]; auto.
        * destruct C as (A & B & D & F). split; [intros [H|H]; congruence|]. auto.
        * destruct C as [H|H]; [left; right; exact H|right; exact H].
  Qed.
  Lemma isdone_step st i st' j w : pstep st i = Some st' -> nth_error (p_ws st) i = Some w -> done (w_pc w) = false -> isdone st j -> isdone st' j.
  Proof.
    intros E Hw D (v & Hv & Dv). exists v. split; auto. rewrite (step_other _ _ _ _ E); auto. intros ->. congruence.
  Qed.
  Lemma inv_move s0 x i w st : inv s0 x -> ~ In i (x_thrown x) -> nth_error (p_ws (x_st x)) i = Some w -> done (w_pc w) = false ->
    pstep (x_st x) i = Some st -> inv s0 (mkX st (x_thrown x) (x_int x) (x_caller x)).
  Proof.
    intros ((sched & R) & T & C) N Hw D E. split; [|split]; cbn [x_st x_thrown x_caller].
    - exists (sched ++ [i]). rewrite prun_snoc, R. exact E.
    - intros j Hj. rewrite (step_other _ _ _ _ E); [auto|]. intros ->. auto.
    - pose proof (fun j => isdone_step _ _ _ j _ E Hw D) as S. destruct (x_caller x) as [k|r s|].
      + destruct C as (A & B & F & G). split; [|split; [|split]]; auto.
      + exfalso. destruct C as [C _]. assert (L : i < jobs). { rewrite <- (reach_len _ _ _ R). apply nth_error_Some. congruence. }
        destruct (C i L) as (v & Hv & Dv). rewrite Hw in Hv. congruence.
      + destruct C as [H|H]; auto.
  Qed.
  Lemma inv_step s0 x e x' : inv s0 x -> xst s0 x e = Some x' -> inv s0 x'.
  Proof.
    intros I E. destruct e as [i|i|]; cbn [xstep] in E.
    - destruct (mem i (x_thrown x)) eqn:Em; [assert (x' = x) by congruence; subst; auto|]. apply mem_not in Em.
      destruct (nth_error (p_ws (x_st x)) i) as [w|] eqn:Ew; [|assert (x' = x) by congruence; subst; auto].
      destruct (match x_caller x with Raised => shared (w_pc w) | _ => false end); [discriminate|].
      destruct (done (w_pc w)) eqn:Ed.
      + destruct (w_pc w) eqn:Ep; try discriminate Ed. destruct (Nat.eqb_spec i last) as [->|N]; [|assert (x' = x) by congruence; subst; auto].
        unfold collect in E. pose proof I as (R & T & C). destruct (x_caller x) as [k|r s|] eqn:Ec; try (assert (x' = x) by congruence; subst; auto; fail).
        destruct C as (A & B & F & G). assert (Dl : isdone (x_st x) last) by (exists w; rewrite Ep; auto).
        destruct (Nat.eqb_spec k last) as [->|N].
        * destruct (par_result (x_st x) s0) as [[r s]|] eqn:Er; [|discriminate]. assert (X : x' = mkX (x_st x) (x_thrown x) (x_int x) (Answered r s)) by congruence. subst x'.
          split; [exact R|]. split; [exact T|]. cbn [x_caller x_st]. split; auto. intros j Hj. destruct (Nat.eq_dec j last) as [->|N]; auto. apply F. unfold last_index in *. lia.
        * destruct (mem k (x_thrown x)) eqn:Ek.
          -- assert (X : x' = mkX (x_st x) (x_thrown x) (x_int x) Raised) by congruence. subst x'. split; [exact R|]. split; [exact T|]. right. exact Dl.
          -- destruct (nth_error (p_ws (x_st x)) k) as [v|] eqn:Ev; [|discriminate]. destruct (done (w_pc v)) eqn:Dv; [|assert (x' = x) by congruence; subst; auto].
             assert (X : x' = mkX (x_st x) (x_thrown x) (x_int x) (Collecting (S k))) by congruence. subst x'. split; [exact R|]. split; [exact T|]. cbn [x_caller x_st x_thrown].
             split; auto. split; [lia|]. split; auto. intros j Hj. destruct (Nat.eq_dec j k) as [->|Nj]; [exists v; auto|]. apply F. lia.
      + assert (X : (if match w_pc w with PCount => check && x_int x && (0 <? p_count (x_st x))%Z | _ => false end then Some (throw jobs x i)
             else match pstep (x_st x) i with Some st => Some (mkX st (x_thrown x) (x_int x) (x_caller x)) | None => Some (throw jobs x i) end) = Some x').
        { destruct (w_pc w); try discriminate Ed; exact E. }
        clear E. destruct (match w_pc w with PCount => _ | _ => _ end) eqn:Eb.
        * assert (Y : x' = throw jobs x i) by congruence. subst x'. eapply inv_throw; eauto. right. destruct (w_pc w); try discriminate Eb; auto.
        * destruct (pstep (x_st x) i) as [st|] eqn:Es.
          -- assert (Y : x' = mkX st (x_thrown x) (x_int x) (x_caller x)) by congruence. subst x'. eapply inv_move; eauto.
          -- assert (Y : x' = throw jobs x i) by congruence. subst x'. eapply inv_throw; eauto. left. unfold par_step, set_w, goto in Es. rewrite Ew in Es.
             destruct (w_pc w); auto; try discriminate Es. destruct (p_stack (x_st x)); discriminate Es.
    - destruct (nth_error (p_ws (x_st x)) i) as [w|] eqn:Ew; [|assert (x' = x) by congruence; subst; auto].
      destruct (w_pc w) eqn:Ep; try (assert (x' = x) by congruence; subst; auto; fail).
      destruct (check && x_int x && negb (mem i (x_thrown x))); [|assert (x' = x) by congruence; subst; auto].
      assert (Y : x' = throw jobs x i) by congruence. subst x'. eapply inv_throw; eauto.
    - assert (Y : x' = mkX (x_st x) (x_thrown x) true (x_caller x)) by congruence. subst x'. exact I.
  Qed.
  Lemma inv_run s0 es : forall x x', inv s0 x -> xrn s0 es x = Some x' -> inv s0 x'.
  Proof.
    induction es as [|e es IH]; intros x x' I E; cbn [xrun] in E; [congruence|]. destruct (xst s0 x e) as [t|] eqn:Es; cbn [bind] in E; [|discriminate].
    eapply IH; [|exact E]. eapply inv_step; eauto.
  Qed.

  (** ** An answer is an answer of a search in which nothing was thrown. *)
  Lemma answered_plain es s r s' : check_sat pr ev mid precision fs lf check jobs es s = Returned r s' ->
    exists sched, icp_par pr ev mid precision fs lf jobs sched s = Some (r, s').
  Proof.
    unfold check_sat, icp_par. destruct (pr s) as [s1|]; [|discriminate]. cbn [bind]. destruct (b_empty (cs_box s1)).
    - intros E. exists []. congruence.
    - destruct (xrn s1 es (xinit lf jobs s1)) as [x|] eqn:Ex; [|discriminate]. destruct (inv_run s1 es _ _ (inv_init s1) Ex) as ((sched & R) & T & C).
      destruct (x_caller x) as [k|r0 s0|]; try discriminate. intros E. assert (r0 = r /\ s0 = s') by (split; congruence). destruct H as [-> ->].
      destruct C as [C D]. exists sched. rewrite R. cbn [bind]. assert (A : all_done (x_st x) = true).
      { unfold all_done. apply forallb_forall. intros w Hw. apply In_nth_error in Hw. destruct Hw as [j Hj]. destruct (C j) as (v & Hv & Dv).
        - rewrite <- (reach_len _ _ _ R). apply nth_error_Some. congruence.
        - assert (v = w) by congruence. subst v. destruct (w_pc w); auto; discriminate. }
      rewrite A. exact D.
  Qed.
  Lemma answered_nothing_thrown es s s1 x r s' : pr s = Some s1 -> xrn s1 es (xinit lf jobs s1) = Some x -> x_caller x = Answered r s' -> x_thrown x = [].
  Proof.
    intros _ Ex Ec. pose proof (inv_run s1 es _ _ (inv_init s1) Ex) as I. pose proof I as ((sched & R) & T & C). rewrite Ec in C. destruct C as [C _].
    destruct (x_thrown x) as [|i l] eqn:El; auto. exfalso. assert (Hi : In i (x_thrown x)) by (rewrite El; left; auto).
    apply (thrown_not_done s1 x i I Hi). apply C. destruct (T i (or_introl eq_refl)) as (w & Hw & _). rewrite <- (reach_len _ _ _ R). apply nth_error_Some. congruence.
  Qed.

  (** ** Without exceptions nothing goes wrong. *)
  Lemma step_found st i st' : (forall k, p_found st = Some k -> k < length (p_ws st)) -> pstep st i = Some st' -> forall k, p_found st' = Some k -> k < length (p_ws st').
  Proof.
    intros H E k Hk. rewrite (step_len _ _ _ E). unfold par_step, set_w, goto in E. destruct (nth_error (p_ws st) i) as [w|] eqn:Ew; [|assert (st' = st) by congruence; subst; auto].
    assert (L : i < length (p_ws st)) by (apply nth_error_Some; congruence).
    destruct (w_pc w); cbn [bind] in E.
    all: try (destruct (p_stack st)); try (destruct (icp_step _ _ _ _ _ _) as [o|]; cbn [bind] in E; [|discriminate]).
    all: apply some_inj in E; subst st'; cbn [p_found] in Hk; auto.
    all: assert (i = k) by congruence; lia.
  Qed.
  Lemma run_found sched : forall st st', (forall k, p_found st = Some k -> k < length (p_ws st)) -> prun sched st = Some st' -> forall k, p_found st' = Some k -> k < length (p_ws st').
  Proof.
    induction sched as [|i s IH]; intros st st' H E; cbn [par_run] in E; [assert (st' = st) by congruence; subst; auto|]. destruct (pstep st i) as [t|] eqn:Es; cbn [bind] in E; [|discriminate].
    eapply IH; [|exact E]. eapply step_found; eauto.
  Qed.
  Lemma quiet_step s0 x e : (forall sched, prun sched (par_init lf jobs s0) <> None) -> inv s0 x -> x_thrown x = [] -> x_caller x <> Raised -> check = false \/ (x_int x = false /\ e <> Signal) ->
    exists x', xst s0 x e = Some x' /\ x_thrown x' = [] /\ x_caller x' <> Raised /\ (check = false \/ x_int x' = false).
  Proof.
    intros Q I HT HC HI. pose proof I as ((sched & R) & T & C).
    assert (B : check && x_int x = false) by (destruct HI as [->|[-> _]]; [reflexivity|apply andb_false_r]).
    assert (Same : exists x', Some x = Some x' /\ x_thrown x' = [] /\ x_caller x' <> Raised /\ (check = false \/ x_int x' = false)) by (exists x; intuition).
    destruct e as [i|i|]; cbn [xstep].
    - rewrite HT. cbn [mem existsb]. destruct (nth_error (p_ws (x_st x)) i) as [w|] eqn:Ew; auto.
      assert (Z : match x_caller x with Raised => shared (w_pc w) | _ => false end = false) by (destruct (x_caller x); congruence). rewrite Z.
      destruct (done (w_pc w)) eqn:Ed.
      + destruct (w_pc w) eqn:Ep; try discriminate Ed. destruct (Nat.eqb_spec i last) as [->|N]; auto. unfold collect. destruct (x_caller x) as [k|r s|] eqn:Ec; auto.
        destruct C as (A & K & F & G). destruct (Nat.eqb_spec k last) as [->|N].
        * assert (X : exists r s, par_result (x_st x) s0 = Some (r, s)).
          { unfold par_result. destruct (p_found (x_st x)) as [k|] eqn:Ef; [|eauto]. destruct (nth_error (p_ws (x_st x)) k) eqn:Ek; [eauto|].
            apply nth_error_None in Ek. pose proof (run_found sched _ _ (fun k (H : p_found (par_init lf jobs s0) = Some k) => ltac:(discriminate H)) R k Ef). lia. }
          destruct X as (r & s & ->). eexists. split; [reflexivity|]. cbn [x_thrown x_caller x_int]. split; [auto|]. split; [discriminate|intuition].
        * rewrite HT. cbn [mem existsb]. destruct (nth_error (p_ws (x_st x)) k) as [v|] eqn:Ev.
          -- destruct (done (w_pc v)); auto. eexists. split; [reflexivity|]. cbn [x_thrown x_caller x_int]. split; [auto|]. split; [discriminate|intuition].
          -- apply nth_error_None in Ev. rewrite (reach_len _ _ _ R) in Ev. unfold last_index in *. lia.
      + destruct (pstep (x_st x) i) as [st|] eqn:Es.
        * exists (mkX st (x_thrown x) (x_int x) (x_caller x)). cbn [x_thrown x_caller x_int]. split; [|intuition]. rewrite HT. rewrite B. cbn [andb].
          destruct (w_pc w); try discriminate Ed; reflexivity.
        * exfalso. apply (Q (sched ++ [i])). rewrite prun_snoc, R. exact Es.
    - destruct (nth_error (p_ws (x_st x)) i) as [w|] eqn:Ew; auto. rewrite B. cbn [andb]. destruct (w_pc w); auto.
    - destruct HI as [HI|[_ H]]; [|congruence]. eexists. split; [reflexivity|]. cbn [x_thrown x_caller x_int]. auto.
  Qed.
  Lemma quiet_run s0 es : (forall sched, prun sched (par_init lf jobs s0) <> None) -> check = false \/ ~ In Signal es -> forall x, inv s0 x -> x_thrown x = [] -> x_caller x <> Raised ->
    check = false \/ x_int x = false -> exists x', xrn s0 es x = Some x' /\ x_thrown x' = [] /\ x_caller x' <> Raised.
  Proof.
    intros Q. induction es as [|e es IH]; intros HS x I HT HC HI; cbn [xrun]; [exists x; auto|].
    destruct (quiet_step s0 x e Q I HT HC) as (t & Et & A & B & D).
    { destruct HS as [H|H]; [auto|]. destruct HI as [H'|H']; [auto|]. right. split; auto. intros ->. apply H. left. auto. }
    rewrite Et. cbn [bind]. apply IH; auto.
    - destruct HS as [H|H]; [auto|]. right. intros X. apply H. right. auto.
    - eapply inv_step; eauto.
  Qed.
  Lemma quiet es s : (forall s1 sched, pr s = Some s1 -> prun sched (par_init lf jobs s1) <> None) -> pr s <> None -> check = false \/ ~ In Signal es ->
    check_sat pr ev mid precision fs lf check jobs es s <> Undefined /\ check_sat pr ev mid precision fs lf check jobs es s <> Threw.
  Proof.
    intros Q P HS. unfold check_sat. destruct (pr s) as [s1|] eqn:Ep; [|congruence]. destruct (b_empty (cs_box s1)); [split; discriminate|].
    destruct (quiet_run s1 es (fun sched => Q s1 sched eq_refl) HS _ (inv_init s1) eq_refl) as (x & -> & _ & B); [discriminate|right; reflexivity|].
    destruct (x_caller x); try (split; discriminate). congruence.
  Qed.

  Lemma prun_throws sched : forall st, prun sched st = None -> exists a t i w, prun a st = Some t /\ nth_error (p_ws t) i = Some w /\ w_pc w = PWork /\
    icp_step pr ev (branch_largest mid) precision fs (w_cs w) = None.
  Proof.
    induction sched as [|i sched IH]; intros st E; cbn [par_run] in E; [discriminate|]. destruct (pstep st i) as [t|] eqn:Es; cbn [bind] in E.
    - destruct (IH t E) as (a & u & j & w & R & H). exists (i :: a), u, j, w. split; auto. cbn [par_run]. rewrite Es. exact R.
    - unfold par_step, set_w, goto in Es. destruct (nth_error (p_ws st) i) as [w|] eqn:Ew; [|discriminate]. exists [], st, i, w. split; [reflexivity|]. split; auto.
      destruct (w_pc w) eqn:Ep; try discriminate Es; [destruct (p_stack st); discriminate Es|]. split; auto.
      destruct (icp_step _ _ _ _ _ _); auto. discriminate Es.
  Qed.
  Lemma causes es s s1 : pr s = Some s1 ->
    check_sat pr ev mid precision fs lf check jobs es s = Undefined \/ check_sat pr ev mid precision fs lf check jobs es s = Threw ->
    (check = true /\ In Signal es) \/
    exists a t i w, prun a (par_init lf jobs s1) = Some t /\ nth_error (p_ws t) i = Some w /\ w_pc w = PWork /\
      icp_step pr ev (branch_largest mid) precision fs (w_cs w) = None.
  Proof.
    intros Ep H. destruct (classic (check = true /\ In Signal es)) as [C|C]; [auto|right].
    destruct (classic (exists sched, prun sched (par_init lf jobs s1) = None)) as [(sched & R)|N]; [eapply prun_throws; eauto|].
    exfalso. destruct (quiet es s) as [A B].
    - intros s2 sched E R. rewrite Ep in E. apply some_inj in E. subst s2. apply N. exists sched. exact R.
    - congruence.
    - destruct check; [right|left; reflexivity]. intros X. apply C. auto.
    - destruct H; contradiction.
  Qed.

  (** ** A box lost with its worker keeps the others from ending. *)
  Definition idle (st : pstate) : Prop := p_found st = None -> forall w, In w (p_ws st) -> done (w_pc w) = true -> p_count st = 0%Z.
  Lemma In_upd {A} i (x w : A) l : In w (upd_nth i x l) -> w = x \/ In w l.
  Proof. revert i. induction l as [|a l IH]; intros [|i] H; cbn [upd_nth] in H; auto; destruct H as [H|H]; cbn [In]; auto. destruct (IH i H); auto. Qed.
  Lemma step_idle st i st' : counted st -> idle st -> pstep st i = Some st' -> idle st'.
  Proof.
    intros HC HI E Hf w Hw D. pose proof HC as [HN _]. unfold par_step, set_w, goto in E. destruct (nth_error (p_ws st) i) as [v|] eqn:Ev; [|assert (st' = st) by congruence; subst; apply (HI Hf w); auto].
    pose proof (list_sum_In held v (p_ws st) (nth_error_In _ _ Ev)) as Hs. unfold hsum in HN.
    destruct (w_pc v) eqn:Ep; cbn [bind] in E.
    all: try (destruct (p_stack st) eqn:Est); try (destruct (icp_step _ _ _ _ _ _) as [o|]; cbn [bind] in E; [|discriminate]).
    all: apply some_inj in E; subst st'; cbn [p_found p_count p_ws] in *.
    all: try (apply In_upd in Hw; destruct Hw as [->|Hw]); try (apply (HI Hf w); auto; fail); cbn [w_pc done] in D; try discriminate D; try discriminate Hf.
    all: try (rewrite Hf in D; discriminate D).
    all: try (destruct o as [?|?|? ? ? ?]; [| |destruct (w_lf v)]; cbn [w_pc done] in D; discriminate D).
    all: try (pose proof (HI Hf w Hw D) as Z0; assert (Hv : held v = 1) by (unfold held; rewrite Ep; reflexivity); lia).
    all: destruct (0 <? p_count st)%Z eqn:El; [destruct (w_pop v); discriminate D|]; apply Z.ltb_ge in El; rewrite HN in *; lia.
  Qed.
  Lemma run_idle sched : forall st st', counted st -> idle st -> prun sched st = Some st' -> idle st'.
  Proof.
    induction sched as [|i s IH]; intros st st' HC HI E; cbn [par_run] in E; [assert (st' = st) by congruence; subst; auto|]. destruct (pstep st i) as [t|] eqn:Es; cbn [bind] in E; [|discriminate].
    eapply IH; [| |exact E]; [eapply step_counted; eauto|eapply step_idle; eauto].
  Qed.
  Lemma init_idle s : idle (par_init lf jobs s).
  Proof. intros _ w Hw D. cbn [par_init p_ws] in Hw. apply repeat_spec in Hw. subst w. discriminate. Qed.
  Lemma blocked s1 es x i w : xrn s1 es (xinit lf jobs s1) = Some x -> In i (x_thrown x) -> nth_error (p_ws (x_st x)) i = Some w -> w_pc w = PWork ->
    p_found (x_st x) = None -> ~ In last (x_thrown x) -> x_caller x = Collecting 0.
  Proof.
    intros Ex Hi Hw P Hf Hl. pose proof (inv_run s1 es _ _ (inv_init s1) Ex) as ((sched & R) & T & C).
    pose proof (run_counted pr ev mid precision fs sched _ _ (init_counted lf jobs s1) R) as HC.
    pose proof (run_idle sched _ _ (init_counted lf jobs s1) (init_idle s1) R) as HI.
    pose proof (list_sum_In held w (p_ws (x_st x)) (nth_error_In _ _ Hw)) as Hs. unfold held in Hs at 1. rewrite P in Hs.
    assert (N : forall j, ~ isdone (x_st x) j). { intros j (v & Hv & D). pose proof (HI Hf v (nth_error_In _ _ Hv) D) as Z0. destruct HC as [HC _]. unfold hsum in HC. lia. }
    destruct (x_caller x) as [[|k]|r s|]; auto; exfalso.
    - destruct C as (_ & _ & _ & G). apply (N last), G. lia.
    - destruct C as [C _]. apply (N 0), C. lia.
    - destruct C as [C|C]; [auto|]. apply (N last C).
  Qed.
End Proofs.

(** ** Runs in which the first box raises an error *)
Lemma cs_with_own s : cs_with_box s (cs_box s) = s.
Proof. destruct s. reflexivity. Qed.
Lemma nth_repeat_some {A} (a : A) n i : i < n -> nth_error (repeat a n) i = Some a.
Proof. revert i. induction n as [|n IH]; intros [|i] H; cbn [repeat nth_error]; auto; [lia|lia|]. apply IH. lia. Qed.
Section First.
  Variable pr : cstat -> option cstat.
  Variable ev : formula -> box -> option (etype * ival).
  Variable mid : dbl -> dbl -> dbl.
  Variable precision : dbl.
  Variable fs : list formula.
  Variable lf : bool.
  Variable jobs : nat.
  Hypothesis J : 2 <= jobs.
  Variable s1 : cstat.
  Hypothesis Bad : icp_step pr ev (branch_largest mid) precision fs s1 = None.
  Notation pstep := (par_step pr ev mid precision fs).

  (** Worker [i] takes the box: head, counter, pop, work. *)
  Lemma four_steps check i x : i < jobs -> x = xinit lf jobs s1 -> exists ws,
    xrun pr ev mid precision fs check jobs s1 [Run i; Run i; Run i; Run i] x =
      Some (throw jobs (mkX (mkP [] 1 None ws) [] false (Collecting 0)) i) /\
    length ws = jobs /\ nth_error ws i = Some (mkW PWork s1 lf true) /\
    forall j, j <> i -> nth_error ws j = nth_error (repeat (mkW PHead s1 lf true) jobs) j.
  Proof.
    intros Hi ->. set (ws0 := repeat (mkW PHead s1 lf true) jobs).
    assert (E0 : nth_error ws0 i = Some (mkW PHead s1 lf true)) by (apply nth_repeat_some; auto).
    set (ws1 := upd_nth i (mkW PCount s1 lf true) ws0). assert (E1 : nth_error ws1 i = Some (mkW PCount s1 lf true)) by (eapply nth_error_upd_eq; eauto).
    set (ws2 := upd_nth i (mkW PPop s1 lf true) ws1). assert (E2 : nth_error ws2 i = Some (mkW PPop s1 lf true)) by (eapply nth_error_upd_eq; eauto).
    set (ws3 := upd_nth i (mkW PWork s1 lf true) ws2). assert (E3 : nth_error ws3 i = Some (mkW PWork s1 lf true)) by (eapply nth_error_upd_eq; eauto).
    exists ws3. split; [|split; [|split]].
    - cbn [xrun bind]. unfold xinit, par_init. fold ws0.
      cbn [xstep x_thrown mem existsb x_st p_ws x_caller]. rewrite E0. cbn [w_pc]. unfold par_step at 1. cbn [p_ws]. rewrite E0. cbn [w_pc]. unfold set_w, goto. cbn [p_found w_cs w_lf w_pop p_stack p_count p_ws bind]. fold ws1.
      cbn [xstep x_thrown mem existsb x_st p_ws x_caller x_int]. rewrite E1. cbn [w_pc]. rewrite andb_false_r. cbn [andb]. unfold par_step at 1. cbn [p_ws]. rewrite E1. cbn [w_pc]. unfold set_w, goto.
      cbn [p_found w_cs w_lf w_pop p_stack p_count p_ws bind]. change (0 <? 1)%Z with true. cbn iota. fold ws2.
      cbn [xstep x_thrown mem existsb x_st p_ws x_caller x_int]. rewrite E2. cbn [w_pc]. unfold par_step at 1. cbn [p_ws]. rewrite E2. cbn [w_pc p_stack]. cbn [p_found w_cs w_lf w_pop p_stack p_count p_ws bind]. rewrite cs_with_own. fold ws3.
      cbn [xstep x_thrown mem existsb x_st p_ws x_caller x_int]. rewrite E3. cbn [w_pc]. unfold par_step at 1. cbn [p_ws]. rewrite E3. cbn [w_pc w_cs]. rewrite Bad. cbn [bind]. reflexivity.
    - unfold ws3, ws2, ws1. rewrite !upd_nth_length. apply repeat_length.
    - exact E3.
    - intros j N. unfold ws3, ws2, ws1. rewrite !nth_error_upd_ne; auto.
  Qed.

  (** A pool worker took it: from then on every other worker waits, for ever. *)
  Definition waiting (w : worker) : Prop := w_pop w = true /\ (w_pc w = PHead \/ w_pc w = PCount \/ w_pc w = PPop).
  Definition stuck (x : xstate) : Prop :=
    p_stack (x_st x) = [] /\ p_count (x_st x) = 1%Z /\ p_found (x_st x) = None /\ x_thrown x = [0] /\ x_caller x = Collecting 0 /\
    forall j w, j <> 0 -> nth_error (p_ws (x_st x)) j = Some w -> waiting w.
  Lemma stuck_step x e : stuck x -> exists x', xstep pr ev mid precision fs false jobs s1 x e = Some x' /\ stuck x'.
  Proof.
    intros S. pose proof S as (A & B & C & D & E & W). destruct e as [i|i|]; cbn [xstep].
    - rewrite D, E. cbn [mem existsb]. rewrite orb_false_r. destruct (Nat.eqb_spec i 0) as [->|N]; [exists x; auto|].
      destruct (nth_error (p_ws (x_st x)) i) as [w|] eqn:Ew; [|exists x; auto]. destruct (W i w N Ew) as (P & H).
      assert (X : forall p, (p = PHead \/ p = PCount \/ p = PPop) -> stuck (mkX (mkP [] 1 None (upd_nth i (mkW p (w_cs w) (w_lf w) true) (p_ws (x_st x)))) [0] (x_int x) (Collecting 0))).
      { intros p Hp. unfold stuck. cbn [x_st p_stack p_count p_found x_thrown x_caller p_ws]. repeat (split; [reflexivity|]). intros j v Nj Hv. destruct (Nat.eq_dec i j) as [<-|M].
        - rewrite (nth_error_upd_eq i _ w) in Hv by auto. apply some_inj in Hv. subst v. split; auto.
        - rewrite nth_error_upd_ne in Hv by auto. eapply W; eauto. }
      unfold par_step, set_w, goto. rewrite Ew, A, B, C, P. destruct H as [H|[H|H]]; rewrite H; cbn [bind andb].
      + eexists. split; [reflexivity|]. apply X. auto.
      + change (0 <? 1)%Z with true. cbn iota. eexists. split; [reflexivity|]. apply X. auto.
      + eexists. split; [reflexivity|]. apply X. auto.
    - cbn [andb]. destruct (nth_error (p_ws (x_st x)) i) as [w|]; [|exists x; auto]. destruct (w_pc w); exists x; auto.
    - eexists. split; [reflexivity|]. exact S.
  Qed.
  Lemma stuck_run es : forall x, stuck x -> exists x', xrun pr ev mid precision fs false jobs s1 es x = Some x' /\ stuck x'.
  Proof.
    induction es as [|e es IH]; intros x S; cbn [xrun]; [exists x; auto|]. destruct (stuck_step x e S) as (t & -> & St). cbn [bind]. auto.
  Qed.
  Lemma xrun_app check a b x : xrun pr ev mid precision fs check jobs s1 (a ++ b) x = bind (xrun pr ev mid precision fs check jobs s1 a x) (xrun pr ev mid precision fs check jobs s1 b).
  Proof. revert x. induction a as [|e a IH]; intros x; [reflexivity|]. cbn [app xrun]. destruct (xstep _ _ _ _ _ _ _ _ _ _); cbn [bind]; auto. Qed.

  Lemma hang s es : pr s = Some s1 -> b_empty (cs_box s1) = false ->
    check_sat pr ev mid precision fs lf false jobs ([Run 0; Run 0; Run 0; Run 0] ++ es) s = Running.
  Proof.
    intros Ep Eb. unfold check_sat. rewrite Ep, Eb. rewrite xrun_app. destruct (four_steps false 0 _ ltac:(lia) eq_refl) as (ws & -> & L & W0 & W). cbn [bind].
    destruct (stuck_run es (throw jobs (mkX (mkP [] 1 None ws) [] false (Collecting 0)) 0)) as (x & -> & S).
    - assert (N : Nat.eqb 0 (last_index jobs) = false) by (apply Nat.eqb_neq; unfold last_index; lia).
      unfold stuck, throw. rewrite N. cbn [x_st p_stack p_count p_found x_thrown x_caller p_ws]. repeat (split; [reflexivity|]).
      intros j w Nj Hw. rewrite W in Hw by auto. apply nth_error_In, repeat_spec in Hw. subst w. split; [reflexivity|left; reflexivity].
    - destruct S as (_ & _ & _ & _ & -> & _). reflexivity.
  Qed.
  (** The calling thread took it: the next step of any other worker is undefined. *)
  Lemma dangling check s : pr s = Some s1 -> b_empty (cs_box s1) = false -> let l := last_index jobs in
    check_sat pr ev mid precision fs lf check jobs [Run l; Run l; Run l; Run l] s = Threw /\
    check_sat pr ev mid precision fs lf check jobs [Run l; Run l; Run l; Run l; Run 0] s = Undefined.
  Proof.
    intros Ep Eb l. unfold check_sat. rewrite Ep, Eb. assert (Hl : l < jobs) by (unfold l, last_index; lia). assert (N : l <> 0) by (unfold l, last_index; lia).
    change [Run l; Run l; Run l; Run l; Run 0] with ([Run l; Run l; Run l; Run l] ++ [Run 0]). rewrite xrun_app.
    destruct (four_steps check l _ Hl eq_refl) as (ws & -> & L & W0 & W). unfold throw. unfold l at 2 4. rewrite Nat.eqb_refl. cbn [x_caller x_st x_thrown x_int bind].
    split; [reflexivity|]. cbn [xrun xstep x_thrown mem existsb x_st p_ws x_caller]. destruct (Nat.eqb_spec 0 l) as [X|_]; [congruence|]. cbn [orb].
    rewrite W, nth_repeat_some by lia. reflexivity.
  Qed.
End First.
(** The sequential search lets the exception through. *)
Lemma seq_throws pr ev brancher precision fs n lf s : icp_step pr ev brancher precision fs (mkCs (cs_box s) None (cs_out s) (cs_used s) (cs_wit s)) = None ->
  icp_seq pr ev brancher precision n fs lf s = None.
Proof. intros E. unfold icp_seq. destruct n; [reflexivity|]. cbn [icp_loop]. rewrite E. reflexivity. Qed.
(** Ctrl-C: the calling thread leaves, the pool goes on. *)
Lemma interrupted pr ev mid precision fs lf s s1 : pr s = Some s1 -> b_empty (cs_box s1) = false ->
  check_sat pr ev mid precision fs lf true 2 [Signal; Run 1; Run 1] s = Threw /\
  check_sat pr ev mid precision fs lf true 2 [Signal; Run 1; Run 1; Run 0] s = Undefined.
Proof. intros Ep Eb. unfold check_sat. rewrite Ep, Eb. split; reflexivity. Qed.
