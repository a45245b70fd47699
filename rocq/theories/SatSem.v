(** * Meaning of the SAT solver's clauses *)
From Coq Require Import ZArith Reals List Bool Arith Lia.
From Verif Require Import Dbl Syntax Sem SemProofs FormulaCons FormulaConsProofs SpecForm PredAbs PredAbsProofs Tseitin Scoped SpecScoped ScopedProofs IEval Sat CtxStruct.
Import ListNotations.

Record sat_inv (s : satst) : Prop := {
  iv_sat : forall v k, sat_of s v = Some k -> 1 <= k <= ss_max s /\ sym_of s k = Some v;
  iv_sym : forall k v, sym_of s k = Some v -> sat_of s v = Some k;
  iv_cls : forall L l, In L (sv_vec (ss_clauses s)) -> In l L -> exists v, sym_of s (fst l) = Some v }.
(** [s'] has at least the variables and clauses of [s]. *)
Record sat_ext (s s' : satst) : Prop := {
  xe_sat : forall v k, sat_of s v = Some k -> sat_of s' v = Some k;
  xe_sym : forall k v, sym_of s k = Some v -> sym_of s' k = Some v;
  xe_max : ss_max s <= ss_max s' }.
Lemma ext_refl s : sat_ext s s. Proof. split; auto. Qed.
Lemma ext_trans a b c : sat_ext a b -> sat_ext b c -> sat_ext a c. Proof. intros [A1 A2 A3] [B1 B2 B3]. split; auto. lia. Qed.

(** Clause [L] holds when symbolic variable [v] is true exactly if [P v]. *)
Definition lit_true (P : var -> Prop) (s : satst) (l : plit) : Prop := exists v, sym_of s (fst l) = Some v /\ (P v <-> snd l = true).
Definition cl_true (P : var -> Prop) (s : satst) (L : pclause) : Prop := exists l, In l L /\ lit_true P s l.
Lemma cl_true_ext P s s' L : sat_ext s s' -> cl_true P s L -> cl_true P s' L.
Proof. intros X (l & I & v & A & B). exists l. split; [exact I|]. exists v. split; [apply (xe_sym _ _ X); exact A|exact B]. Qed.

Lemma make_sat_var_spec s v : sat_inv s -> let s' := make_sat_var s v in
  sat_inv s' /\ sat_ext s s' /\ sv_vec (ss_clauses s') = sv_vec (ss_clauses s) /\ ss_pa s' = ss_pa s /\ ss_tse s' = ss_tse s /\
  (exists k, sat_of s' v = Some k) /\ (forall w k, sat_of s' w = Some k -> sat_of s w = Some k \/ w = v).
Proof.
  intros I. unfold make_sat_var. destruct (sat_of s v) as [k0|] eqn:E; cbn zeta.
  { split; [exact I|]. split; [apply ext_refl|]. eauto 10. }
  set (s' := {| ss_clauses := _ |}).
  assert (A : forall w, sat_of s' w = if var_eqb w v then Some (S (ss_max s)) else sat_of s w) by (intros w; apply (rd_insert var_eqb var_eqb_spec')).
  assert (B : forall k, sym_of s' k = if Nat.eqb k (S (ss_max s)) then Some v else sym_of s k) by (intros k; apply (rd_insert Nat.eqb nat_eqb_spec')).
  assert (X : sat_ext s s').
  { split; cbn [ss_max s']; [| |lia].
    - intros w k H. rewrite A. destruct (var_eqb_spec' w v) as [->|]; congruence.
    - intros k w H. rewrite B. destruct (Nat.eqb_spec k (S (ss_max s))) as [->|]; auto. apply (iv_sym s I), (iv_sat s I) in H. lia. }
  split; [|split; [exact X|]].
  - split.
    + intros w k H. rewrite A in H. destruct (var_eqb_spec' w v) as [->|N].
      * injection H as <-. cbn [ss_max s']. split; [lia|]. rewrite B, Nat.eqb_refl. reflexivity.
      * destruct (iv_sat s I w k H) as [H1 H2]. cbn [ss_max s']. split; [lia|]. apply (xe_sym _ _ X). exact H2.
    + intros k w H. rewrite B in H. destruct (Nat.eqb_spec k (S (ss_max s))) as [->|N].
      * injection H as <-. rewrite A. destruct (var_eqb_spec' v v); congruence.
      * apply (xe_sat _ _ X). apply (iv_sym s I). exact H.
    + intros L l HL Hl. destruct (iv_cls s I L l HL Hl) as [w Hw]. exists w. apply (xe_sym _ _ X). exact Hw.
  - split; [reflexivity|]. split; [reflexivity|]. split; [reflexivity|]. split.
    + exists (S (ss_max s)). rewrite A. destruct (var_eqb_spec' v v); congruence.
    + intros w k H. rewrite A in H. destruct (var_eqb_spec' w v); auto.
Qed.
Lemma make_sat_vars_spec vs : forall s, sat_inv s -> let s' := fold_left make_sat_var vs s in
  sat_inv s' /\ sat_ext s s' /\ sv_vec (ss_clauses s') = sv_vec (ss_clauses s) /\ ss_pa s' = ss_pa s /\ ss_tse s' = ss_tse s /\
  (forall w k, sat_of s' w = Some k -> sat_of s w = Some k \/ In w vs).
Proof.
  induction vs as [|v vs IH]; intros s I; cbn [fold_left]; cbn zeta.
  { split; [exact I|]. split; [apply ext_refl|]. auto. }
  destruct (make_sat_var_spec s v I) as (I1 & X1 & C1 & P1 & T1 & _ & D1). destruct (IH _ I1) as (I2 & X2 & C2 & P2 & T2 & D2).
  split; [exact I2|]. split; [exact (ext_trans _ _ _ X1 X2)|]. split; [congruence|]. split; [congruence|]. split; [congruence|].
  intros w k H. destruct (D2 w k H) as [H1|H1]; [|right; right; exact H1]. destruct (D1 w k H1) as [H2| ->]; [left; exact H2|right; left; reflexivity].
Qed.

Lemma lit_of_spec s f l : lit_of s f = Some l -> exists v, sat_of s v = Some (fst l) /\ f = if snd l then FVar v else FNot (FVar v).
Proof.
  intros H. destruct f; cbn [lit_of] in H; try discriminate.
  - destruct (sat_of s v) as [k|] eqn:E; cbn [bind] in H; [|discriminate]. injection H as <-. exists v. auto.
  - destruct f; try discriminate. destruct (sat_of s v) as [k|] eqn:E; cbn [bind] in H; [|discriminate]. injection H as <-. exists v. auto.
Qed.
Lemma lits_of_spec s fs : forall L, lits_of s fs = Some L -> Forall2 (fun f l => lit_of s f = Some l) fs L.
Proof.
  induction fs as [|f fs IH]; intros L H; cbn [lits_of] in H; [injection H as <-; constructor|].
  destruct (lit_of s f) as [l|] eqn:E; cbn [bind] in H; [|discriminate]. destruct (lits_of s fs) as [r|]; cbn [bind] in H; [|discriminate]. injection H as <-.
  constructor; auto.
Qed.
Lemma with_clause_inv L s : sat_inv s -> (forall l, In l L -> exists v, sym_of s (fst l) = Some v) -> sat_inv (with_clause L s).
Proof.
  intros [A B C] H. split; [exact A|exact B|]. cbn [with_clause ss_clauses sv_push_back sv_vec]. intros L' l HL Hl. apply in_app_or in HL.
  destruct HL as [HL|[<-|[]]]; [exact (C L' l HL Hl)|exact (H l Hl)].
Qed.

Section Sem.
  Variable M : interp.
  Notation hd := (holds M).
  Definition denotes (P : var -> Prop) (e : env) : Prop := forall v, e v = 1%R <-> P v.
  Lemma add_clause_spec f s s' : sat_inv s -> sat_add_clause f s = Some s' ->
    sat_inv s' /\ sat_ext s s' /\ ss_pa s' = ss_pa s /\ ss_tse s' = ss_tse s /\
    (forall w k, sat_of s' w = Some k -> sat_of s w = Some k \/ In w (fvF f)) /\
    (forall P e, denotes P e -> hd f e -> (forall L, In L (sv_vec (ss_clauses s)) -> cl_true P s L) -> forall L, In L (sv_vec (ss_clauses s')) -> cl_true P s' L) /\
    exists L, sv_vec (ss_clauses s') = sv_vec (ss_clauses s) ++ [L].
  Proof.
    intros I E. unfold sat_add_clause in E. destruct (make_sat_vars_spec (fvF f) s I) as (I1 & X1 & C1 & P1 & T1 & D1).
    set (s1 := fold_left make_sat_var (fvF f) s) in *. destruct (lits_of s1 (clause_lits f)) as [L|] eqn:EL; cbn [bind] in E; [|discriminate]. injection E as <-.
    apply lits_of_spec in EL.
    assert (XX : sat_ext s (with_clause L s1)) by (destruct X1 as [X11 X12 X13]; split; auto).
    assert (Ok : forall l, In l L -> exists v, sym_of s1 (fst l) = Some v).
    { intros l Hl. destruct (Forall2_In_r _ _ _ _ EL Hl) as (g & Hg & El). apply lit_of_spec in El. destruct El as (v & Ev & _).
      exists v. apply (iv_sat s1 I1). exact Ev. }
    split; [apply with_clause_inv; assumption|]. split; [exact XX|]. split; [exact P1|]. split; [exact T1|]. split; [exact D1|].
    split; [|exists L; cbn [with_clause ss_clauses sv_push_back sv_vec]; rewrite C1; reflexivity].
    intros P e Dn Hf Old L' HL. cbn [with_clause ss_clauses sv_push_back sv_vec] in HL. rewrite C1 in HL. apply in_app_or in HL.
    destruct HL as [HL|[<-|[]]]; [exact (cl_true_ext P s _ L' XX (Old L' HL))|].
    assert (G : exists g, In g (clause_lits f) /\ hd g e).
    { destruct f; try (eexists; split; [left; reflexivity|exact Hf]). cbn [clause_lits]. apply (proj1 (holds_or M fs e)) in Hf. apply Exists_exists in Hf. exact Hf. }
    destruct G as (g & Hg & Tg). destruct (Forall2_In_l _ _ _ _ EL Hg) as (l & Hl & El). exists l. split; [exact Hl|].
    apply lit_of_spec in El. destruct El as (v & Ev & ->). exists v. split; [apply (iv_sat s1 I1); exact Ev|].
    rewrite <- (Dn v). destruct (snd l); cbn [holds] in Tg; split; intros; auto; try tauto; discriminate.
  Qed.
  Lemma add_clauses_spec gs : forall s s', sat_inv s -> sat_add_clauses gs s = Some s' ->
    sat_inv s' /\ sat_ext s s' /\ ss_pa s' = ss_pa s /\ ss_tse s' = ss_tse s /\
    (forall w k, sat_of s' w = Some k -> sat_of s w = Some k \/ exists g, In g gs /\ In w (fvF g)) /\
    (forall P e, denotes P e -> (forall g, In g gs -> hd g e) -> (forall L, In L (sv_vec (ss_clauses s)) -> cl_true P s L) -> forall L, In L (sv_vec (ss_clauses s')) -> cl_true P s' L).
  Proof.
    induction gs as [|g gs IH]; intros s s' I E; cbn [sat_add_clauses] in E.
    { injection E as <-. split; [exact I|]. split; [apply ext_refl|]. auto 10. }
    destruct (sat_add_clause g s) as [s1|] eqn:E1; cbn [bind] in E; [|discriminate].
    destruct (add_clause_spec g s s1 I E1) as (I1 & X1 & P1 & T1 & D1 & S1 & _). destruct (IH s1 s' I1 E) as (I2 & X2 & P2 & T2 & D2 & S2).
    split; [exact I2|]. split; [exact (ext_trans _ _ _ X1 X2)|]. split; [congruence|]. split; [congruence|]. split.
    - intros w k H. destruct (D2 w k H) as [H1|(h & H1 & H2)]; [|right; exists h; split; [right; exact H1|exact H2]].
      destruct (D1 w k H1) as [|H2]; [left; assumption|right; exists g; split; [left; reflexivity|exact H2]].
    - intros P e Dn Hg Old. apply (S2 P e Dn); [intros h Hh; apply Hg; right; exact Hh|]. apply (S1 P e Dn); auto. apply Hg. left. reflexivity.
  Qed.
End Sem.

(** ** The assignment read off a model *)
Lemma model_loop_spec s a is : forall bm tm, sat_model_loop s a is = (bm, tm) ->
  (forall v val, In (v, val) tm <-> exists i, In i is /\ a i = Some val /\ sym_of s i = Some v /\ in_pa s v = true) /\
  (forall v val, In (v, val) bm <-> exists i, In i is /\ a i = Some val /\ sym_of s i = Some v /\ in_pa s v = false /\ is_tse s v = false).
Proof.
  induction is as [|i is IH]; intros bm tm E; cbn [sat_model_loop] in E.
  { injection E as <- <-. split; intros v val; (split; [intros []|intros (? & [] & _)]). }
  destruct (sat_model_loop s a is) as [bm1 tm1]. destruct (IH bm1 tm1 eq_refl) as [A B].
  destruct (a i) as [x|] eqn:Ea; [destruct (sym_of s i) as [w|] eqn:Es; [destruct (in_pa s w) eqn:Ep; [|destruct (is_tse s w) eqn:Et]|]|];
    injection E as <- <-; (split; intros v val; [specialize (A v val); clear B|specialize (B v val); clear A]).
  all: match goal with H : (_ <-> _) |- _ => rename H into X end.
  all: split;
    [intros H; try (destruct H as [H|H]; [injection H as <- <-; exists i; repeat split; auto; left; reflexivity|]);
     apply X in H; destruct H as (j & H1 & H2); exists j; split; [right; exact H1|exact H2]
    |intros (j & [<-|H1] & H2 & H3); try (rewrite Ea in H2; injection H2 as <-); try (exfalso; congruence);
     try (rewrite Es in H3; destruct H3 as [H3 H4]; try discriminate H3; injection H3 as <-);
     try (exfalso; destruct H4; congruence); try (exfalso; congruence);
     try (left; reflexivity); try right; apply X; exists j; auto].
Qed.
Lemma sat_model_spec s a bm tm : sat_inv s -> sat_model s a = (bm, tm) ->
  (forall v val, In (v, val) tm <-> exists i, a i = Some val /\ sat_of s v = Some i /\ in_pa s v = true) /\
  (forall v val, In (v, val) bm <-> exists i, a i = Some val /\ sat_of s v = Some i /\ in_pa s v = false /\ is_tse s v = false).
Proof.
  intros I E. destruct (model_loop_spec s a (seq 1 (ss_max s)) bm tm E) as [A B].
  split; intros v val; [rewrite A|rewrite B]; (split; intros (i & H); exists i).
  - destruct H as (_ & H1 & H2 & H3). split; [exact H1|]. split; [apply (iv_sym s I); exact H2|exact H3].
  - destruct H as (H1 & H2 & H3). destruct (iv_sat s I v i H2) as [H4 H5]. split; [apply in_seq; lia|auto].
  - destruct H as (_ & H1 & H2 & H3). split; [exact H1|]. split; [apply (iv_sym s I); exact H2|exact H3].
  - destruct H as (H1 & H2 & H3). destruct (iv_sat s I v i H2) as [H4 H5]. split; [apply in_seq; lia|auto].
Qed.
