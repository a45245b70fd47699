(** * From an accepted assignment to the weakened assertions (behind C02) *)
From Coq Require Import ZArith Reals Lra Lia List Bool Arith Classical.
From Flocq Require Import IEEE754.BinarySingleNaN.
From Verif Require Import Dbl DblProofs Syntax Sem SemProofs FormulaCons FormulaConsProofs SpecForm Nnf NnfProofs PredAbs PredAbsProofs
  Scoped Interval IEval IEvalProofs Contr Icp Filter Theory SpecWeak Wff WffProofs Sat Context CtxStruct SatSem CdclProofs SpecCtx CtxBox CtxSem CtxRun CtxSat CtxHom CtxDelta.
Import ListNotations.
Local Notation R := Rdefinitions.R.

Section Val.
  Variables (M : interp) (delta : R) (exc : expr -> expr -> env -> Prop) (fold : expr -> expr -> option dbl).
  Hypothesis Pd : (0 < delta)%R.
  Variables (s : satst) (nx : nat) (a : nat -> option bool) (rho : env).
  Hypothesis SI : sat_inv s.
  Hypothesis PK : pa_ok fold {| pa_next := nx; pa_map := ss_pa s |}.
  Notation wk := (weakened M delta exc).
  Definition avar (v : var) (x : bool) : Prop := exists k, sat_of s v = Some k /\ a k = Some x.
  Lemma avar_fun v x y : avar v x -> avar v y -> x = y.
  Proof. intros (k & H1 & H2) (j & H3 & H4). congruence. Qed.
  Definition tau (f : formula) : Prop := (exists b, In (b, f) (ss_pa s) /\ avar b true) \/ ((forall b x, In (b, f) (ss_pa s) -> ~ avar b x) /\ wk true f rho).
  Definition beta (v : var) : Prop := (exists f, In (v, f) (ss_pa s) /\ tau f) \/ ((forall f, ~ In (v, f) (ss_pa s)) /\ (avar v true \/ ((forall x, ~ avar v x) /\ rho v = 1%R))).
  Definition relE (o : relop) (x y : expr) : Prop :=
    match o with
    | REq => tau (FRel REq x y) | RNeq => ~ tau (FRel REq x y)
    | RLt => tau (FRel RLt x y) | RGeq => ~ tau (FRel RLt x y)
    | RLeq => tau (FRel RLeq x y) | RGt => ~ tau (FRel RLeq x y)
    end.
  Fixpoint val (f : formula) : Prop :=
    match f with
    | FTrue => True | FFalse => False | FVar v => beta v | FRel o x y => relE o x y
    | FAnd fs => fold_right (fun g acc => val g /\ acc) True fs
    | FOr fs => fold_right (fun g acc => val g \/ acc) False fs
    | FNot g => ~ val g
    | FForall vs g => tau (FForall vs g)
    end.
  Lemma val_hom : hom val.
  Proof.
    split; cbn [val]; auto; try tauto.
    - intros fs. induction fs as [|f fs IH]; cbn [fold_right]; [split; [intros _ g []|auto]|]. cbn [val] in IH. rewrite IH. split.
      + intros [H1 H2] g [<-|Hg]; auto.
      + intros H. split; [apply H; left; reflexivity|intros g Hg; apply H; right; exact Hg].
    - intros fs. induction fs as [|f fs IH]; cbn [fold_right]; [split; [intros []|intros (g & [] & _)]|]. cbn [val] in IH. rewrite IH. split.
      + intros [H|(g & Hg & H)]; [exists f; split; [left; reflexivity|exact H]|exists g; split; [right; exact Hg|exact H]].
      + intros (g & [<-|Hg] & H); [left; exact H|right; exists g; auto].
    - intros o x y. destruct o; cbn [neg_relop relE]; split; auto; try tauto; apply NNPP.
  Qed.
  Lemma key_val f : abs_key fold f -> val f = tau f.
  Proof. intros [(x & y & -> & _)|[(x & y & -> & _)|[(x & y & -> & _)|(vs & g & ->)]]]; reflexivity. Qed.
  Lemma beta_in b f : In (b, f) (ss_pa s) -> (beta b <-> tau f).
  Proof.
    intros H. split.
    - intros [(g & Hg & X)|[N _]]; [rewrite (pk_fun _ _ PK b f g H Hg); exact X|destruct (N f H)].
    - intros X. left. exists f. auto.
  Qed.
  Lemma val_defs : edefs val (ss_pa s).
  Proof. intros b d H. rewrite (key_val d (pk_key _ _ PK b d H)). exact (beta_in b d H). Qed.
  Lemma tau_assigned b f x : In (b, f) (ss_pa s) -> avar b x -> (tau f <-> x = true).
  Proof.
    intros H Hx. split.
    - intros [(c & Hc & Ac)|[N _]]; [|destruct (N b x H Hx)]. rewrite <- (pk_inj _ _ PK b c f H Hc) in Ac. exact (avar_fun b x true Hx Ac).
    - intros ->. left. exists b. auto.
  Qed.
  Lemma val_clause L : In L (sv_vec (ss_clauses s)) -> clause_sat a L -> cl_true (fun v => val (FVar v)) s L.
  Proof.
    intros HL (l & Hl & Hs). destruct (iv_cls _ SI L l HL Hl) as [v Hv]. exists l. split; [exact Hl|]. exists v. split; [exact Hv|].
    assert (Av : avar v (snd l)) by (exists (fst l); split; [apply (iv_sym _ SI); exact Hv|exact Hs]).
    cbn [val]. destruct (classic (exists f, In (v, f) (ss_pa s))) as [[f Hf]|N].
    - rewrite (beta_in v f Hf). exact (tau_assigned v f _ Hf Av).
    - split; [|intros E; right; split; [intros f C; apply N; exists f; exact C|left; rewrite <- E; exact Av]].
      intros [(f & C & _)|[_ [X|[X _]]]]; [destruct N; exists f; exact C|exact (avar_fun v _ _ Av X)|destruct (X _ Av)].
  Qed.

  (** Assigned literals are weakly true at the point; assigned Boolean variables have their value. *)
  Variable q : var -> Prop.    (* the variables the point is known at *)
  Hypothesis HT : forall f, assigned s a f -> (forall v, In v (fvF f) -> q v) -> wk true f rho.
  Hypothesis HB : forall v x, q v -> avar v x -> (forall f, ~ In (v, f) (ss_pa s)) -> rho v = bval x.
  Lemma lit_in b f x : In (b, f) (ss_pa s) -> avar b x -> assigned s a (if x then f else mk_not f).
  Proof.
    intros H (k & H1 & H2). assert (E : in_pa s b = true) by (unfold in_pa; apply existsb_exists; exists (b, f); split; [exact H|apply var_eqb_eq; reflexivity]).
    apply in_pa_iff in E. destruct E as [f' E]. exists b, k, x, f'. split; [exact H1|]. split; [exact E|]. split; [exact H2|].
    apply theory_literal_in in E. rewrite (pk_fun _ _ PK b f f' H E). reflexivity.
  Qed.
  Lemma weak_total o x y : wk true (FRel o x y) rho \/ wk false (FRel o x y) rho.
  Proof.
    cbn [weakened]. destruct o; cbn [relop_neg weakR]; try (left; left; exact I); try (right; left; exact I);
      match goal with |- (?A - ?B > _)%R \/ _ \/ _ => idtac | _ => idtac end;
      destruct (Rle_or_lt (evalE M x rho) (evalE M y rho)); first [left; left; lra|right; left; lra].
  Qed.
  Lemma tau_weak o x y : (forall v, In v (fvE x ++ fvE y) -> q v) -> (tau (FRel o x y) -> wk true (FRel o x y) rho) /\ (~ tau (FRel o x y) -> wk false (FRel o x y) rho).
  Proof.
    intros Hq. split.
    - intros [(b & H & Av)|[_ H]]; [|exact H]. exact (HT _ (lit_in b _ true H Av) Hq).
    - intros N. destruct (classic (exists b z, In (b, FRel o x y) (ss_pa s) /\ avar b z)) as [(b & z & H & Av)|Un].
      + destruct z; [destruct N; left; exists b; auto|]. exact (HT _ (lit_in b _ false H Av) Hq).
      + destruct (weak_total o x y) as [W|W]; [|exact W]. destruct N. right. split; [|exact W]. intros b z H Av. apply Un. exists b, z. auto.
  Qed.
  Lemma val_weak f : qf f = true -> (forall v, In v (fvF f) -> q v) -> (forall v f', In v (fvF f) -> In (v, f') (ss_pa s) -> False) ->
    (val f -> wk true f rho) /\ (~ val f -> wk false f rho).
  Proof.
    induction f as [| |v|o x y|gs IH|gs IH|g IH|vs g IH] using formula_ind'; intros Q Hq Nk; cbn [val weakened qf fvF] in *.
    - split; [auto|intros N; exfalso; apply N; exact I].
    - split; [intros []|auto].
    - assert (Np : forall f, ~ In (v, f) (ss_pa s)) by (intros f C; exact (Nk v f (or_introl eq_refl) C)). split.
      + intros [(f & C & _)|[_ [Av|[_ E]]]]; [destruct (Np f C)|exact (HB v true (Hq v (or_introl eq_refl)) Av Np)|exact E].
      + intros N E. apply N. right. split; [exact Np|]. destruct (classic (exists x, avar v x)) as [[x Av]|U].
        * pose proof (HB v x (Hq v (or_introl eq_refl)) Av Np) as E'. destruct x; [left; exact Av|]. cbn [bval] in E'. exfalso. lra.
        * right. split; [|exact E]. intros x C. apply U. exists x. exact C.
    - pose proof (tau_weak REq x y Hq) as [A1 A2]. pose proof (tau_weak RLt x y Hq) as [B1 B2]. pose proof (tau_weak RLeq x y Hq) as [C1 C2]. cbn [weakened] in *.
      destruct o; cbn [relE relop_neg] in *; split; auto; intros H; first [apply A1|apply B1|apply C1]; apply NNPP; exact H.
    - assert (Z : forall g, In g gs -> (val g -> wk true g rho) /\ (~ val g -> wk false g rho)).
      { intros g Hg. rewrite Forall_forall in IH. rewrite forallb_forall in Q. apply IH; auto.
        - intros v Hv. apply Hq. apply in_flat_map. exists g. auto.
        - intros v f' Hv. apply Nk. apply in_flat_map. exists g. auto. }
      clear IH Q Hq Nk. split; (induction gs as [|g gs IHl]; cbn [fold_right] in *; [tauto|]); intros H.
      + split; [apply Z; [left; reflexivity|apply H]|apply IHl; [intros; apply Z; right; assumption|apply H]].
      + destruct (classic (val g)) as [V|V]; [right; apply IHl; [intros; apply Z; right; assumption|tauto]|left; apply (proj2 (Z g (or_introl eq_refl))); exact V].
    - assert (Z : forall g, In g gs -> (val g -> wk true g rho) /\ (~ val g -> wk false g rho)).
      { intros g Hg. rewrite Forall_forall in IH. rewrite forallb_forall in Q. apply IH; auto.
        - intros v Hv. apply Hq. apply in_flat_map. exists g. auto.
        - intros v f' Hv. apply Nk. apply in_flat_map. exists g. auto. }
      clear IH Q Hq Nk. split; (induction gs as [|g gs IHl]; cbn [fold_right] in *; [tauto|]); intros H.
      + destruct H as [H|H]; [left; apply Z; [left; reflexivity|exact H]|right; apply IHl; [intros; apply Z; right; assumption|exact H]].
      + split; [apply (proj2 (Z g (or_introl eq_refl))); tauto|apply IHl; [intros; apply Z; right; assumption|tauto]].
    - destruct (IH Q Hq Nk) as [H1 H2]. split; [exact H2|]. intros N. cbn [negb]. apply H1. apply NNPP. exact N.
    - discriminate.
  Qed.
End Val.
