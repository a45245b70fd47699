(** Accounting and loss-freedom of the parallel search, for every schedule. *)
From Coq Require Import ZArith Reals Lra Lia List Bool.
From Flocq Require Import Core.Core IEEE754.BinarySingleNaN.
From Verif Require Import Dbl DblProofs Syntax Sem SemProofs Interval IntervalProofs MathConv MathConvProofs IEval IEvalProofs Contr ContrProofs Icp IcpProofs IcpTop IcpPar.
Import ListNotations.

Definition hsum (ws : list worker) : nat := list_sum (map held ws).
Lemma list_sum_upd {A} (h : A -> nat) i (w w' : A) l : nth_error l i = Some w ->
  list_sum (map h (upd_nth i w' l)) + h w = list_sum (map h l) + h w'.
Proof.
  revert i. induction l as [|x l IH]; intros [|i] E; try discriminate.
  - injection E as ->. cbn [upd_nth map list_sum fold_right]. change (fold_right Nat.add 0 (map h l)) with (list_sum (map h l)). lia.
  - cbn [upd_nth map list_sum fold_right]. specialize (IH i E). unfold list_sum in *. lia.
Qed.
Lemma list_sum_In {A} (h : A -> nat) x l : In x l -> h x <= list_sum (map h l).
Proof. induction l as [|y l IH]; intros []; cbn [map list_sum fold_right]; [subst; lia|]. apply IH in H. unfold list_sum in *. lia. Qed.
Lemma upd_nth_In {A} i (x y : A) l : In y (upd_nth i x l) -> y = x \/ In y l.
Proof. revert i. induction l as [|z l IH]; intros [|i] H; cbn [upd_nth In] in *; auto; destruct H as [H|H]; auto. apply IH in H. tauto. Qed.
Lemma nth_error_upd_eq {A} i (x y : A) l : nth_error l i = Some y -> nth_error (upd_nth i x l) i = Some x.
Proof. revert i. induction l as [|z l IH]; intros [|i] E; try discriminate; cbn [upd_nth nth_error] in *; auto. Qed.
Lemma nth_error_upd_ne {A} i j (x : A) l : i <> j -> nth_error (upd_nth i x l) j = nth_error l j.
Proof. revert i j. induction l as [|z l IH]; intros [|i] [|j] N; cbn [upd_nth nth_error] in *; auto; congruence. Qed.
Lemma Exists_upd {A} (P : A -> Prop) i (w w' : A) l : nth_error l i = Some w -> (Exists P (upd_nth i w' l) <-> P w' \/ exists j x, j <> i /\ nth_error l j = Some x /\ P x).
Proof.
  intros E. rewrite Exists_exists. split.
  - intros (x & Hx & Px). apply In_nth_error in Hx. destruct Hx as [j Hj]. destruct (Nat.eq_dec i j) as [<-|N].
    + rewrite (nth_error_upd_eq _ _ _ _ E) in Hj. injection Hj as ->. auto.
    + rewrite nth_error_upd_ne in Hj by auto. right. exists j, x. auto.
  - intros [H|(j & x & N & Hj & Px)].
    + exists w'. split; auto. apply (nth_error_In _ i). apply (nth_error_upd_eq _ _ _ _ E).
    + exists x. split; auto. apply (nth_error_In _ j). rewrite nth_error_upd_ne; auto.
Qed.
Lemma Exists_split {A} (P : A -> Prop) i (w : A) l : nth_error l i = Some w -> (Exists P l <-> P w \/ exists j x, j <> i /\ nth_error l j = Some x /\ P x).
Proof.
  intros E. rewrite Exists_exists. split.
  - intros (x & Hx & Px). apply In_nth_error in Hx. destruct Hx as [j Hj]. destruct (Nat.eq_dec i j) as [<-|N].
    + rewrite E in Hj. injection Hj as ->. auto.
    + right. exists j, x. auto.
  - intros [H|(j & x & N & Hj & Px)].
    + exists w. split; auto. eapply nth_error_In; eauto.
    + exists x. split; auto. eapply nth_error_In; eauto.
Qed.

Section Par.
  Variable pr : cstat -> option cstat.
  Variable ev : formula -> box -> option (etype * ival).
  Variable mid : dbl -> dbl -> dbl.
  Variable precision : dbl.
  Variable fs : list formula.
  Notation pstep := (par_step pr ev mid precision fs).
  Notation prun := (par_run pr ev mid precision fs).
  Notation brancher := (branch_largest mid).
  Notation acc := (accepted ev brancher precision fs).

  (** ** Accounting *)
  Definition w_wf (w : worker) : Prop := (w_pc w = PPop -> w_pop w = true) /\ (w_pc w = PDec -> w_pop w = true).
  Definition counted (st : pstate) : Prop :=
    p_count st = Z.of_nat (length (p_stack st) + hsum (p_ws st)) /\ Forall w_wf (p_ws st).

  Lemma Forall_upd {A} (P : A -> Prop) i x l : Forall P l -> P x -> Forall P (upd_nth i x l).
  Proof. apply Forall_upd_nth. Qed.

  Lemma step_counted st i st' : counted st -> pstep st i = Some st' -> counted st'.
  Proof.
    intros [HC HW] E. unfold par_step in E. destruct (nth_error (p_ws st) i) as [w|] eqn:Ew; [|injection E as <-; split; auto].
    pose proof (fun w' => list_sum_upd held i w w' (p_ws st) Ew) as Hs. fold hsum in Hs.
    assert (Ww : w_wf w) by (rewrite Forall_forall in HW; apply HW; eapply nth_error_In; eauto). destruct Ww as (W1 & W2).
    unfold set_w, counted in *. unfold goto, hsum in *.
    destruct (w_pc w) eqn:Ep; cbn [bind] in E.
    - injection E as <-. cbn [p_count p_stack p_ws]. split; [|apply Forall_upd; auto; unfold w_wf; cbn [w_pc w_pop]; destruct (p_found st); repeat split; discriminate].
      specialize (Hs (mkW (match p_found st with None => PCount | Some _ => PDone false end) (w_cs w) (w_lf w) (w_pop w))).
      unfold held in Hs at 2 4. rewrite Ep in Hs. cbn [w_pc w_pop] in Hs. destruct (p_found st), (w_pop w); lia.
    - injection E as <-. cbn [p_count p_stack p_ws]. split.
      + match goal with |- context [upd_nth i ?x _] => specialize (Hs x) end.
        unfold held in Hs at 2 4. rewrite Ep in Hs. cbn [w_pc w_pop] in Hs. destruct (0 <? p_count st)%Z, (w_pop w); lia.
      + apply Forall_upd; auto; unfold w_wf; cbn [w_pc w_pop]. destruct (0 <? p_count st)%Z, (w_pop w); repeat split; auto; discriminate.
    - specialize (W1 eq_refl). destruct (p_stack st) as [|b rest] eqn:Est; injection E as <-; cbn [p_count p_stack p_ws].
      + split; [|apply Forall_upd; auto; unfold w_wf; cbn [w_pc w_pop]; repeat split; discriminate].
        match goal with |- context [upd_nth i ?x _] => specialize (Hs x) end.
        unfold held in Hs at 2 4. rewrite Ep in Hs. cbn [w_pc w_pop] in Hs. cbn [length] in *. destruct (w_pop w); lia.
      + split; [|apply Forall_upd; auto; unfold w_wf; cbn [w_pc w_pop]; repeat split; discriminate].
        match goal with |- context [upd_nth i ?x _] => specialize (Hs x) end.
        unfold held in Hs at 2 4. rewrite Ep in Hs. cbn [w_pc w_pop] in Hs. cbn [length] in *. destruct (w_pop w); [lia|discriminate].
    - destruct (icp_step _ _ _ _ _ _) as [o|]; cbn [bind] in E; [|discriminate]. injection E as <-. cbn [p_count p_stack p_ws].
      split; [|apply Forall_upd; auto; unfold w_wf; destruct o; [| |destruct (w_lf w)]; cbn [w_pc w_pop]; repeat split; discriminate].
      match goal with |- context [upd_nth i ?x _] => specialize (Hs x) end.
      unfold held in Hs at 2 4. rewrite Ep in Hs. destruct o; [| |destruct (w_lf w)]; cbn [w_pc w_pop] in Hs; lia.
    - injection E as <-. cbn [p_count p_stack p_ws]. specialize (W2 eq_refl). split; [|apply Forall_upd; auto; unfold w_wf; cbn [w_pc w_pop]; repeat split; discriminate].
      match goal with |- context [upd_nth i ?x _] => specialize (Hs x) end.
      unfold held in Hs at 2 4. rewrite Ep in Hs. cbn [w_pc w_pop] in Hs. destruct (w_pop w); [lia|discriminate].
    - injection E as <-. cbn [p_count p_stack p_ws]. split; [|apply Forall_upd; auto; unfold w_wf; cbn [w_pc w_pop]; repeat split; discriminate].
      match goal with |- context [upd_nth i ?x _] => specialize (Hs x) end.
      unfold held in Hs at 2 4. rewrite Ep in Hs. cbn [w_pc w_pop] in Hs. lia.
    - injection E as <-. cbn [p_count p_stack p_ws]. split; [|apply Forall_upd; auto; unfold w_wf; cbn [w_pc w_pop]; repeat split; discriminate].
      match goal with |- context [upd_nth i ?x _] => specialize (Hs x) end.
      unfold held in Hs at 2 4. rewrite Ep in Hs. cbn [w_pc w_pop] in Hs. lia.
    - injection E as <-. cbn [p_count p_stack p_ws]. split; [|apply Forall_upd; auto; unfold w_wf; cbn [w_pc w_pop]; repeat split; discriminate].
      match goal with |- context [upd_nth i ?x _] => specialize (Hs x) end.
      unfold held in Hs at 2 4. rewrite Ep in Hs. cbn [w_pc w_pop length] in *. lia.
    - injection E as <-. split; auto.
  Qed.
  Lemma run_counted sched : forall st st', counted st -> prun sched st = Some st' -> counted st'.
  Proof.
    induction sched as [|i sched IH]; intros st st' HC E; cbn [par_run] in E; [injection E as <-; auto|].
    destruct (pstep st i) as [st1|] eqn:Es; cbn [bind] in E; [|discriminate]. eapply IH; [|exact E]. eapply step_counted; eauto.
  Qed.
  Lemma init_counted lf jobs s : counted (par_init lf jobs s).
  Proof.
    split.
    - cbn [par_init p_count p_stack p_ws length]. assert (H : hsum (repeat (mkW PHead s lf true) jobs) = 0); [|rewrite H; reflexivity].
      unfold hsum. induction jobs; cbn [repeat map list_sum fold_right]; auto.
    - cbn [par_init p_ws]. apply Forall_forall. intros w Hw. apply repeat_spec in Hw. subst w. unfold w_wf. cbn [w_pc]. repeat split; discriminate.
  Qed.
  (** A worker that leaves because the counter is not positive leaves nothing unexplored. *)
  Lemma exhausted_nothing_left st : counted st -> (p_count st <= 0)%Z -> p_count st = 0%Z /\ p_stack st = [] /\ Forall (fun w => held w = 0) (p_ws st).
  Proof.
    intros [HC _] H. rewrite HC in *. assert (X : length (p_stack st) = 0 /\ hsum (p_ws st) = 0) by lia. destruct X as [X Y].
    split; [lia|]. split; [destruct (p_stack st); auto; discriminate|]. apply Forall_forall. intros w Hw. pose proof (list_sum_In held w (p_ws st) Hw) as Z0. unfold hsum in Y. lia.
  Qed.

  (** ** Boxes *)
  Section Good.
    Variables (ok G G' : box -> Prop) (R : cstat -> Prop).
    Hypothesis R_same : forall s b bp o, R (mkCs b bp o (cs_used s) (cs_wit s)) <-> R s.
    Hypothesis R_used : forall s f, R (add_used s f) -> R s.
    Hypothesis R_pr : forall s s', ok (cs_box s) -> pr s = Some s' -> R s' -> R s.
    Hypothesis ok_pr : forall s s', ok (cs_box s) -> pr s = Some s' -> ok (cs_box s').
    Hypothesis ok_br : forall b act d l r, ok b -> brancher b act = Some (Some (d, l, r)) -> ok l /\ ok r.
    Hypothesis G_pr : forall s s', ok (cs_box s) -> G (cs_box s) -> pr s = Some s' -> R s' -> b_empty (cs_box s') = false /\ G' (cs_box s').
    Hypothesis G_ev : forall s f i, In f fs -> ok (cs_box s) -> G' (cs_box s) -> ev f (cs_box s) = Some (UNSAT, i) ->
      R (add_used (cs_with_box s (b_set_empty (cs_box s))) f) -> False.
    Hypothesis G_br : forall b act d l r, ok b -> G' b -> brancher b act = Some (Some (d, l, r)) -> G l \/ G r.

    Hypothesis G'_G : forall b, G' b -> G b.


    Definition w_ok (w : worker) : Prop :=
      match w_pc w with
      | PHead | PCount => w_pop w = false -> ok (cs_box (w_cs w))
      | PPop => w_pop w = true
      | PDone false => True
      | PDec => w_pop w = true
      | PWork => ok (cs_box (w_cs w))
      | PInc b | PPush b => ok (cs_box (w_cs w)) /\ ok b
      | PFound | PDone true => ok (cs_box (w_cs w)) /\ acc (w_cs w)
      end.
    Definition st_ok (st : pstate) : Prop :=
      Forall ok (p_stack st) /\ Forall w_ok (p_ws st) /\
      match p_found st with Some k => exists w, nth_error (p_ws st) k = Some w /\ w_pc w = PDone true | None => True end.

    Lemma step_st_ok st i st' : st_ok st -> pstep st i = Some st' -> st_ok st'.
    Proof.
      intros (HS & HW & HF) E. unfold par_step in E. destruct (nth_error (p_ws st) i) as [w|] eqn:Ew; [|injection E as <-; split; auto].
      assert (Ww : w_ok w) by (rewrite Forall_forall in HW; apply HW; eapply nth_error_In; eauto).
      assert (HF' : forall w', (w_pc w <> PDone true) -> match p_found st with Some k => exists x, nth_error (upd_nth i w' (p_ws st)) k = Some x /\ w_pc x = PDone true | None => True end).
      { intros w' N. destruct (p_found st) as [k|]; auto. destruct HF as (x & Hx & Px). exists x. split; auto. rewrite nth_error_upd_ne; auto.
        intros ->. rewrite Ew in Hx. injection Hx as ->. auto. }
      unfold w_ok in Ww. unfold set_w, goto in E. destruct (w_pc w) eqn:Ep; cbn [bind] in E.
      - injection E as <-. split; [exact HS|]. split; [|apply HF'; discriminate]. cbn [p_ws]. apply Forall_upd; auto. unfold w_ok. cbn [w_pc w_cs w_pop]. destruct (p_found st); auto.
      - injection E as <-. split; [exact HS|]. split; [|apply HF'; discriminate]. cbn [p_ws]. apply Forall_upd; auto. unfold w_ok. cbn [w_pc w_cs w_pop].
        destruct (0 <? p_count st)%Z; auto. destruct (w_pop w); auto.
      - destruct (p_stack st) as [|b rest] eqn:Est; injection E as <-; cbn [p_stack p_ws].
        + split; [cbn [p_stack]; auto|]. split; [|apply HF'; discriminate]. cbn [p_ws]. apply Forall_upd; auto. unfold w_ok. cbn [w_pc w_cs w_pop]. congruence.
        + inversion HS; subst. split; [auto|]. split; [|apply HF'; discriminate]. cbn [p_ws]. apply Forall_upd; auto.
      - destruct (icp_step _ _ _ _ _ _) as [o|] eqn:Eo; cbn [bind] in E; [|discriminate]. injection E as <-.
        split; [exact HS|]. split; [|apply HF'; discriminate]. cbn [p_ws]. apply Forall_upd; auto.
        pose proof (step_ok_boxes pr ev brancher precision fs ok ok_pr ok_br _ _ Ww Eo) as SB. destruct o as [s1|s1|d l r s1].
        + unfold w_ok. cbn [w_pc w_pop]. auto.
        + unfold w_ok. cbn [w_pc w_cs]. split; auto. destruct (step_inv _ _ _ _ _ _ _ Eo) as (s2 & _ & -> & X). exact X.
        + destruct SB. destruct (w_lf w); unfold w_ok; cbn [w_pc w_cs cs_with_box cs_box]; auto.
      - injection E as <-. split; [exact HS|]. split; [|apply HF'; discriminate]. cbn [p_ws]. apply Forall_upd; auto. unfold w_ok. cbn [w_pc w_cs w_pop]. congruence.
      - injection E as <-. split; [exact HS|]. split; [cbn [p_ws]; apply Forall_upd; auto|]. cbn [p_found p_ws]. eexists. split; [eapply nth_error_upd_eq; eauto|reflexivity].
      - injection E as <-. split; [exact HS|]. split; [|apply HF'; discriminate]. cbn [p_ws]. apply Forall_upd; auto.
      - injection E as <-. destruct Ww. split; [constructor; auto|]. split; [|apply HF'; discriminate]. cbn [p_ws]. apply Forall_upd; auto. unfold w_ok. cbn [w_pc w_cs w_pop]. auto.
      - injection E as <-. split; auto.
    Qed.
    Lemma run_st_ok sched : forall st st', st_ok st -> prun sched st = Some st' -> st_ok st'.
    Proof.
      induction sched as [|i sched IH]; intros st st' HC E; cbn [par_run] in E; [injection E as <-; auto|].
      destruct (pstep st i) as [st1|] eqn:Es; cbn [bind] in E; [|discriminate]. eapply IH; [|exact E]. eapply step_st_ok; eauto.
    Qed.
    Lemma init_st_ok lf jobs s : ok (cs_box s) -> st_ok (par_init lf jobs s).
    Proof.
      intros K. split; [constructor; auto|]. split; [|exact I]. cbn [par_init p_ws]. apply Forall_forall. intros w Hw. apply repeat_spec in Hw. subst w.
      unfold w_ok. cbn [w_pc w_pop]. discriminate.
    Qed.

    (** *** R goes backwards *)
    Definition RW (w : worker) : Prop := R (w_cs w).
    Lemma R_box s b : R (cs_with_box s b) <-> R s.
    Proof. unfold cs_with_box. apply R_same. Qed.
    Lemma step_RW st i st' : st_ok st -> pstep st i = Some st' -> Forall RW (p_ws st') -> Forall RW (p_ws st).
    Proof.
      intros (HS & HW & HF) E HR. unfold par_step in E. destruct (nth_error (p_ws st) i) as [w|] eqn:Ew; [|injection E as <-; auto].
      assert (Ww : w_ok w) by (rewrite Forall_forall in HW; apply HW; eapply nth_error_In; eauto).
      assert (K : forall w', (RW w' -> RW w) -> Forall RW (upd_nth i w' (p_ws st)) -> Forall RW (p_ws st)).
      { intros w' Hw' HF'. rewrite Forall_forall in *. intros x Hx. apply In_nth_error in Hx. destruct Hx as [j Hj].
        destruct (Nat.eq_dec i j) as [<-|N].
        - rewrite Ew in Hj. injection Hj as <-. apply Hw', HF'. apply (nth_error_In _ i). eapply nth_error_upd_eq; eauto.
        - apply HF'. apply (nth_error_In _ j). rewrite nth_error_upd_ne; auto. }
      unfold w_ok in Ww. unfold set_w, goto in E. destruct (w_pc w) eqn:Ep; cbn [bind] in E.
      - injection E as <-. eapply K; [|exact HR]; auto.
      - injection E as <-. eapply K; [|exact HR]; auto.
      - destruct (p_stack st) as [|b rest] eqn:Est; injection E as <-; (eapply K; [|exact HR]); auto. unfold RW. cbn [w_cs]. apply R_box.
      - destruct (icp_step _ _ _ _ _ _) as [o|] eqn:Eo; cbn [bind] in E; [|discriminate]. injection E as <-.
        eapply K; [|exact HR]. intros H. apply (step_R pr ev brancher precision fs ok R R_same R_used R_pr _ _ Ww Eo).
        destruct o as [s1|s1|d l r s1]; cbn [o_state]; [exact H|exact H|]. destruct (w_lf w); unfold RW in H; cbn [w_cs] in H; apply R_box in H; exact H.
      - injection E as <-. eapply K; [|exact HR]; auto.
      - injection E as <-. eapply K; [|exact HR]; auto.
      - injection E as <-. eapply K; [|exact HR]; auto.
      - injection E as <-. eapply K; [|exact HR]; auto.
      - injection E as <-. auto.
    Qed.
    Lemma run_RW sched : forall st st', st_ok st -> prun sched st = Some st' -> Forall RW (p_ws st') -> Forall RW (p_ws st).
    Proof.
      induction sched as [|i sched IH]; intros st st' HC E HR; cbn [par_run] in E; [injection E as <-; auto|].
      destruct (pstep st i) as [st1|] eqn:Es; cbn [bind] in E; [|discriminate]. eapply step_RW; eauto. eapply IH; [|exact E|exact HR]. eapply step_st_ok; eauto.
    Qed.

    (** *** A good box is never lost *)
    Definition w_good (w : worker) : Prop :=
      match w_pc w with
      | PHead | PCount => w_pop w = false /\ G (cs_box (w_cs w))
      | PPop | PDec | PDone _ => False
      | PWork => G (cs_box (w_cs w))
      | PInc b | PPush b => G (cs_box (w_cs w)) \/ G b
      | PFound => True
      end.
    Definition good (st : pstate) : Prop :=
      p_found st <> None \/
      (Exists G (p_stack st) \/ Exists w_good (p_ws st)) /\ Forall (fun w => match w_pc w with PDone _ => False | _ => True end) (p_ws st).
    Lemma w_good_held w : w_good w -> held w <> 0.
    Proof. unfold w_good, held. destruct (w_pc w); try discriminate; try tauto; destruct (w_pop w); try discriminate; intros [? _]; discriminate. Qed.

    Lemma step_good_st st i st' : counted st -> st_ok st -> good st -> pstep st i = Some st' -> Forall RW (p_ws st') -> good st'.
    Proof.
      intros HC (HS & HW & HF) HG E HR. unfold par_step in E. destruct (nth_error (p_ws st) i) as [w|] eqn:Ew; [|injection E as <-; auto].
      assert (Ww : w_ok w) by (rewrite Forall_forall in HW; apply HW; eapply nth_error_In; eauto).
      assert (Rw : forall w', In w' (p_ws st') -> RW w') by (rewrite Forall_forall in HR; exact HR).
      destruct HG as [HG|[HG HD]].
      { left. unfold set_w in E. destruct (w_pc w); try (injection E as <-; exact HG); try (injection E as <-; discriminate).
        - destruct (p_stack st); injection E as <-; exact HG.
        - destruct (icp_step _ _ _ _ _ _); cbn [bind] in E; [|discriminate]. injection E as <-. exact HG. }
      assert (Nd : forall w', match w_pc w' with PDone _ => False | _ => True end -> Forall (fun w => match w_pc w with PDone _ => False | _ => True end) (upd_nth i w' (p_ws st))).
      { intros w' N. apply Forall_upd; auto. }
      assert (K : forall stk' w', (Exists G (p_stack st) -> Exists G stk' \/ w_good w') -> (w_good w -> Exists G stk' \/ w_good w') ->
        Exists G stk' \/ Exists w_good (upd_nth i w' (p_ws st))).
      { intros stk' w' H1 H2. rewrite (Exists_upd _ _ w) by auto. rewrite (Exists_split w_good i w (p_ws st) Ew) in HG.
        destruct HG as [HG|[HG|HG]]; [apply H1 in HG|apply H2 in HG|]; tauto. }
      unfold w_ok in Ww. unfold set_w, goto in E. destruct (w_pc w) eqn:Ep; cbn [bind] in E.
      - injection E as <-. destruct (p_found st) eqn:Ef; [left; cbn [p_found]; discriminate|right]. split; [|apply Nd; exact I].
        apply K; auto. unfold w_good. rewrite Ep. cbn [w_pc w_pop w_cs]. auto.
      - injection E as <-. destruct (0 <? p_count st)%Z eqn:Ec.
        + right. split; [|apply Nd; cbn [w_pc]; destruct (w_pop w); exact I]. apply K; auto. unfold w_good. rewrite Ep. cbn [w_pc w_pop w_cs].
          intros [-> H]. cbn. auto.
        + exfalso. apply Z.ltb_ge in Ec. destruct (exhausted_nothing_left st HC Ec) as (_ & X & Y). rewrite X in HG. destruct HG as [HG|HG]; [inversion HG|].
          rewrite Exists_exists in HG. destruct HG as (x & Hx & Gx). rewrite Forall_forall in Y. apply w_good_held in Gx. apply Gx, Y, Hx.
      - destruct (p_stack st) as [|b rest] eqn:Est; injection E as <-; right; (split; [|apply Nd; exact I]); cbn [p_stack p_ws].
        + apply K; [intros H; inversion H|]. unfold w_good at 1. rewrite Ep. tauto.
        + apply K; [|unfold w_good at 1; rewrite Ep; tauto]. intros H. inversion H; subst; auto.
      - destruct (icp_step _ _ _ _ _ _) as [o|] eqn:Eo; cbn [bind] in E; [|discriminate]. injection E as <-. right. cbn [p_stack p_ws] in *.
        split; [|apply Nd; destruct o; [| |destruct (w_lf w)]; exact I]. apply K; [auto|]. unfold w_good at 1. rewrite Ep. intros Gw. right.
        assert (Ro : R (o_state o)).
        { match type of Rw with context [upd_nth i ?x _] => assert (X : RW x) end.
          { apply Rw. apply (nth_error_In _ i). eapply nth_error_upd_eq; eauto. }
          unfold RW in X. destruct o as [s1|s1|d l r s1]; cbn [o_state w_cs] in *; auto. destruct (w_lf w); cbn [w_cs] in X; apply R_box in X; exact X. }
        pose proof (step_good pr ev brancher precision fs ok G G' R R_same R_used ok_pr G_pr G_ev G_br _ _ Ww Gw Eo Ro) as X.
        destruct o as [s1|s1|d l r s1]; [tauto|exact I|]. destruct (w_lf w); unfold w_good; cbn [w_pc w_cs cs_with_box cs_box]; tauto.
      - injection E as <-. right. split; [|apply Nd; exact I]. cbn [p_stack p_ws]. apply K; [auto|]. unfold w_good at 1. rewrite Ep. tauto.
      - injection E as <-. left. discriminate.
      - injection E as <-. right. split; [|apply Nd; exact I]. cbn [p_stack p_ws]. apply K; [auto|]. unfold w_good. rewrite Ep. cbn [w_pc w_cs]. auto.
      - injection E as <-. right. split; [|apply Nd; exact I]. cbn [p_stack p_ws]. apply K; [intros H; left; constructor 2; auto|]. unfold w_good. rewrite Ep. cbn [w_pc w_cs w_pop].
        intros [H|H]; auto.
      - injection E as <-. right. auto.
    Qed.
    Lemma run_good sched : forall st st', counted st -> st_ok st -> good st -> prun sched st = Some st' -> Forall RW (p_ws st') -> good st'.
    Proof.
      induction sched as [|i sched IH]; intros st st' HC HO HG E HR; cbn [par_run] in E; [injection E as <-; auto|].
      destruct (pstep st i) as [st1|] eqn:Es; cbn [bind] in E; [|discriminate].
      assert (C1 : counted st1) by (eapply step_counted; eauto). assert (O1 : st_ok st1) by (eapply step_st_ok; eauto).
      apply (IH st1 st'); auto. apply (step_good_st st i st1); auto. apply (run_RW sched st1 st'); auto.
    Qed.
    Lemma init_good lf jobs s : G (cs_box s) -> good (par_init lf jobs s).
    Proof.
      intros HG. right. split; [left; constructor; auto|]. cbn [par_init p_ws]. apply Forall_forall. intros w Hw. apply repeat_spec in Hw. subst w. exact I.
    Qed.
    Lemma step_jobs st i st' : pstep st i = Some st' -> length (p_ws st') = length (p_ws st).
    Proof.
      unfold par_step. destruct (nth_error (p_ws st) i) as [w|] eqn:Ew; [|intros [= <-]; auto]. unfold set_w.
      destruct (w_pc w); try (intros [= <-]; cbn [p_ws]; rewrite ?upd_nth_length; auto; fail).
      - destruct (p_stack st); intros [= <-]; cbn [p_ws]; rewrite ?upd_nth_length; auto.
      - destruct (icp_step _ _ _ _ _ _); cbn [bind]; [|discriminate]. intros [= <-]. cbn [p_ws]. rewrite ?upd_nth_length; auto.
    Qed.
    Lemma run_jobs sched : forall st st', prun sched st = Some st' -> length (p_ws st') = length (p_ws st).
    Proof.
      induction sched as [|i sched IH]; intros st st' E; cbn [par_run] in E; [injection E as <-; auto|].
      destruct (pstep st i) as [st1|] eqn:Es; cbn [bind] in E; [|discriminate]. rewrite (IH _ _ E). eapply step_jobs; eauto.
    Qed.
    (** The final states of all workers satisfy R if the joined status does. *)
    Hypothesis R_join : forall a b, R (cs_join a b) -> R a /\ R b.
    Lemma join_RW ws : forall s, R (fold_left (fun acc w => cs_join acc (w_cs w)) ws s) -> R s /\ Forall RW ws.
    Proof.
      induction ws as [|w ws IH]; intros s H; cbn [fold_left] in H; [auto|]. destruct (IH _ H) as [A B]. destruct (R_join _ _ A). split; auto.
    Qed.
    Theorem par_good lf jobs sched s s' : jobs <> 0 -> ok (cs_box s) -> G (cs_box s) ->
      icp_par pr ev mid precision fs lf jobs sched s = Some (false, s') -> R s' -> False.
    Proof.
      intros J K HG E HR. unfold icp_par in E. destruct (pr s) as [s1|] eqn:E1; cbn [bind] in E; [|discriminate].
      destruct (b_empty (cs_box s1)) eqn:Em.
      { injection E as <-. destruct (G_pr s s1 K HG E1 HR) as [C _]. congruence. }
      destruct (prun sched (par_init lf jobs s1)) as [st|] eqn:Er; cbn [bind] in E; [|discriminate].
      destruct (all_done st) eqn:Ed; [|discriminate]. unfold par_result in E.
      destruct (p_found st) as [k|] eqn:Ef; [destruct (nth_error (p_ws st) k); discriminate|]. injection E as <-.
      apply R_box in HR. apply join_RW in HR. destruct HR as [R1 RWs].
      destruct (G_pr s s1 K HG E1 R1) as [_ G1].
      (* the box was pruned once before being queued *)
      assert (X : good st).
      { eapply run_good; [apply init_counted|apply (init_st_ok lf jobs s1), (ok_pr s s1); auto|apply init_good|exact Er|exact RWs]. apply G'_G; auto. }
      destruct X as [X|[_ X]]; [auto|]. assert (L : length (p_ws st) = jobs) by (rewrite (run_jobs _ _ _ Er); cbn [par_init p_ws]; apply repeat_length).
      destruct (p_ws st) as [|w ws] eqn:Ew; [cbn in L; congruence|]. unfold all_done in Ed. rewrite Ew in Ed. cbn [forallb] in Ed. apply andb_prop in Ed. destruct Ed as [Ed _].
      inversion X as [|a b X1 X2]; subst. destruct (w_pc w); try discriminate. exact X1.
    Qed.
    Theorem par_R lf jobs sched s s' : ok (cs_box s) -> icp_par pr ev mid precision fs lf jobs sched s = Some (false, s') -> R s' -> R s.
    Proof.
      intros K E HR. unfold icp_par in E. destruct (pr s) as [s1|] eqn:E1; cbn [bind] in E; [|discriminate]. apply (R_pr s s1); auto.
      destruct (b_empty (cs_box s1)) eqn:Em; [injection E as <-; exact HR|].
      destruct (prun sched (par_init lf jobs s1)) as [st|] eqn:Er; cbn [bind] in E; [|discriminate].
      destruct (all_done st) eqn:Ed; [|discriminate]. unfold par_result in E.
      destruct (p_found st) as [k|] eqn:Ef; [destruct (nth_error (p_ws st) k); discriminate|]. injection E as <-.
      apply R_box in HR. apply join_RW in HR. apply HR.
    Qed.
    Theorem par_accept lf jobs sched s s' : ok (cs_box s) ->
      icp_par pr ev mid precision fs lf jobs sched s = Some (true, s') ->
      ok (cs_box s') /\ exists t, cs_box t = cs_box s' /\ acc t.
    Proof.
      intros K E. unfold icp_par in E. destruct (pr s) as [s1|] eqn:E1; cbn [bind] in E; [|discriminate].
      destruct (b_empty (cs_box s1)) eqn:Em; [discriminate|].
      destruct (prun sched (par_init lf jobs s1)) as [st|] eqn:Er; cbn [bind] in E; [|discriminate].
      destruct (all_done st) eqn:Ed; [|discriminate]. unfold par_result in E.
      destruct (p_found st) as [k|] eqn:Ef; [|discriminate]. destruct (nth_error (p_ws st) k) as [w|] eqn:Ew; [|discriminate]. injection E as <-.
      destruct (run_st_ok sched _ _ (init_st_ok lf jobs s1 (ok_pr _ _ K E1)) Er) as (_ & HW & HF). rewrite Ef in HF. destruct HF as (w' & Ew' & Pw).
      rewrite Ew in Ew'. injection Ew' as <-. rewrite Forall_forall in HW. pose proof (HW w (nth_error_In _ _ Ew)) as X. unfold w_ok in X. rewrite Pw in X.
      destruct X. cbn [cs_with_box cs_box]. split; auto. exists (w_cs w). auto.
    Qed.
    Theorem par_false_empty lf jobs sched s s' : icp_par pr ev mid precision fs lf jobs sched s = Some (false, s') -> b_empty (cs_box s') = true.
    Proof.
      intros E. unfold icp_par in E. destruct (pr s) as [s1|] eqn:E1; cbn [bind] in E; [|discriminate].
      destruct (b_empty (cs_box s1)) eqn:Em; [injection E as <-; auto|].
      destruct (prun sched (par_init lf jobs s1)) as [st|] eqn:Er; cbn [bind] in E; [|discriminate].
      destruct (all_done st) eqn:Ed; [|discriminate]. unfold par_result in E.
      destruct (p_found st) as [k|] eqn:Ef; [destruct (nth_error (p_ws st) k); discriminate|]. injection E as <-. cbn [cs_with_box cs_box].
      unfold b_empty, b_set_empty. cbn [bvals]. match goal with |- context [map _ ?l] => destruct l; reflexivity end.
    Qed.
  End Good.
End Par.
