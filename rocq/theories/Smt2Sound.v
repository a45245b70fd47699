(** * Scripts and the verdicts of the solver, together *)
From Coq Require Import ZArith Reals Lra Lia List Bool.
From Flocq Require Import IEEE754.BinarySingleNaN.
From Verif Require Import Dbl Syntax Sem Interval IEval FormulaCons StdInterp Regular SpecAlg ExprAlg IteElim Context SpecCtx Smt2 SpecSmt2 Smt2Proofs Smt2Top.
Import ListNotations.

Lemma asserts_of_history (A : formula -> Prop) ops : forall p saved, (forall f, In (OAssert f) ops -> A f) -> (forall f, In f (p_asserts p) -> A f) ->
  (forall q f, In q saved -> In f (p_asserts q) -> A f) -> forall q f, In q (problems ops (p, saved)) -> In f (p_asserts q) -> A f.
Proof.
  induction ops as [|o ops IH]; intros p saved HA Hp Hs q f Hq Hf; cbn [problems] in Hq; [destruct Hq|].
  assert (HA' : forall f, In (OAssert f) ops -> A f) by (intros g Hg; apply HA; right; auto).
  assert (D : forall v p, p_asserts (declare v p) = p_asserts p) by (intros v0 p0; unfold declare; destruct (mem_var _ _); reflexivity).
  destruct o; cbn [p_step] in Hq; try (apply (IH p saved HA' Hp Hs q f Hq Hf)).
  - apply (IH (declare v p) saved HA') with (q := q); auto; rewrite D; auto.
  - apply (IH (set_domain v (between l u) (declare v p)) saved HA') with (q := q); auto; cbn [set_domain p_asserts]; rewrite D; auto.
  - apply (IH (set_domain v (between l u) p) saved HA' Hp Hs q f Hq Hf).
  - apply (IH (add_assert f0 p) saved HA') with (q := q); auto. intros g Hg. cbn [add_assert p_asserts] in Hg. apply in_app_iff in Hg. destruct Hg as [Hg|[<-|[]]]; auto. apply HA. left. reflexivity.
  - apply (IH p (p :: saved) HA' Hp) with (q := q); auto. intros q' g [<-|X] Hg; auto. apply (Hs q' g X Hg).
  - destruct saved as [|p' saved]; [apply (IH p [] HA' Hp Hs q f Hq Hf)|]. apply (IH p' saved HA') with (q := q); auto; [intros g; apply Hs; left; auto|intros q' g X; apply Hs; right; auto].
  - destruct Hq as [<-|Hq]; auto. apply (IH p saved HA' Hp Hs q f Hq Hf).
Qed.

Section Sound.
  Variables (uf : nat -> list R -> R) (rc : dbl -> dbl -> R) (fpow : dbl -> dbl -> dbl) (n : nat) (alloc : nat -> nat).
  Notation M := (std uf rc).
  Hypothesis Hal : forall i j, i < j -> alloc i < alloc j.
  Variable V : nat -> value.
  (** The assertions are regular wherever the symbols have the values [V]. *)
  Definition regular_at (ops : list cop) : Prop := forall rho f, reads V ops rho -> In (OAssert f) ops -> defF M stdD f rho -> holds M f rho -> regular M stdD f rho.
  Theorem script_unsat cs s tr answers : script fpow n alloc cs drv0 = (Val s, tr) -> Forall (exact M) tr -> Forall plain_cmd cs -> Forall kept (d_notes s) ->
    s_defd M stdD V cs s_init -> s_sorted V cs 0 -> regular_at (rev (d_ops s)) ->
    Forall2 (fun p (a : option box) => a = None -> ~ exists rho, solution M stdD p rho) (problems (rev (d_ops s)) (p_empty, [])) answers ->
    Forall2 (fun F a => a = None -> ~ forall P : Prop, In P F -> P) (s_checks M stdD V cs s_init) answers.
  Proof.
    intros E Ht Hp Hk Hd Hs Hr HA. pose proof (script_ok uf rc fpow n alloc Hal V cs s tr E Ht Hp Hk Hd Hs) as HF.
    assert (Hin : forall q f, In q (problems (rev (d_ops s)) (p_empty, [])) -> In f (p_asserts q) -> In (OAssert f) (rev (d_ops s))).
    { apply (asserts_of_history (fun f => In (OAssert f) (rev (d_ops s)))); auto. intros f []. intros q f []. }
    clear E Ht Hp Hk Hd Hs. revert Hr Hin HA HF. unfold regular_at, reads. generalize (rev (d_ops s)). intros ops Hr. generalize (problems ops (p_empty, [])) (s_checks M stdD V cs s_init).
    intros ps Fs Hin HA HF. revert answers HA. induction HF as [|F p Fs ps H HF IH]; intros answers HA; inversion HA as [|? a ? l Ha HA']; subst; constructor.
    - intros Ea Hf. apply (Ha Ea). apply H in Hf. destruct Hf as (rho & W & Rd & Dm & As). exists rho. split; [exact W|]. split; [exact Dm|].
      intros f Hf. destruct (As f Hf) as [D1 H1]. split; auto. apply Hr; auto. apply (Hin p f); auto. left. reflexivity.
    - apply IH; auto. intros q f Hq. apply Hin. right. exact Hq.
  Qed.
  Theorem script_unsat_scoped cs s tr answers : names_ok cs ([], [], []) -> script fpow n alloc cs drv0 = (Val s, tr) -> Forall (exact M) tr -> Forall plain_cmd cs -> Forall kept (d_notes s) ->
    z_defd M stdD V cs (s_init, []) -> s_sorted V cs 0 -> regular_at (rev (d_ops s)) ->
    Forall2 (fun p (a : option box) => a = None -> ~ exists rho, solution M stdD p rho) (problems (rev (d_ops s)) (p_empty, [])) answers ->
    Forall2 (fun F a => a = None -> ~ forall P : Prop, In P F -> P) (z_checks M stdD V cs (s_init, [])) answers.
  Proof.
    intros Hn E Ht Hp Hk Hd Hs Hr HA. destruct (scopes_init M stdD V cs Hn) as [E1 E2]. rewrite <- E1. apply (script_unsat cs s tr answers E Ht Hp Hk (E2 Hd) Hs Hr HA).
  Qed.
  Theorem script_scoped cs s tr : names_ok cs ([], [], []) -> script fpow n alloc cs drv0 = (Val s, tr) -> Forall (exact M) tr -> Forall plain_cmd cs -> Forall kept (d_notes s) ->
    z_defd M stdD V cs (s_init, []) -> s_sorted V cs 0 ->
    Forall2 (fun (F : list Prop) p => (forall P, In P F -> P) <-> exists rho, reads V (rev (d_ops s)) rho /\
      (forall v d, In (v, d) (p_doms p) -> d (rho v)) /\ forall f, In f (p_asserts p) -> defF M stdD f rho /\ holds M f rho)
      (z_checks M stdD V cs (s_init, [])) (problems (rev (d_ops s)) (p_empty, [])).
  Proof.
    intros Hn E Ht Hp Hk Hd Hs. destruct (scopes_init M stdD V cs Hn) as [E1 E2]. rewrite <- E1.
    pose proof (script_ok uf rc fpow n alloc Hal V cs s tr E Ht Hp Hk (E2 Hd) Hs) as HF. clear - HF. induction HF as [|F p Fs ps H HF IH]; constructor; auto.
    rewrite H. unfold reads. split; intros (rho & G); exists rho; tauto.
  Qed.
  Theorem forall_ok cs s tr bs t tm s' tr' : script fpow n alloc cs drv0 = (Val s, tr) -> Forall (exact M) tr -> Forall plain_cmd cs -> Forall kept (d_notes s') ->
    s_defd M stdD V cs s_init -> s_sorted V cs 0 -> elab fpow n alloc (SForall bs t) s = (Val (tm, s'), tr') -> Forall (exact M) tr' -> plain_term t -> has_let t = false -> Forall binder_ok bs ->
    let S0 := s_run M stdD V cs s_init in all_values in_sort bs (ss_env S0) (fun E => defd M (ss_funs S0) stdD (ss_fdef S0) t E) ->
    forall rho, reads V (rev (d_ops s)) rho ->
    (term_value M tm rho = VB true <-> all_values in_binder bs (ss_env S0) (fun E => den M (ss_funs S0) t E = VB true)).
  Proof.
    intros E Ht Hp Hk Hd Hs Ee Ht' Pl Hl Hb S0 Hdf rho Hr.
    destruct (term_ok uf rc fpow n alloc Hal V cs s tr (SForall bs t) tm s' tr' E Ht Hp Hk Hd Hs Ee Ht' (conj Pl (conj Hl Hb)) Hl Hdf rho Hr) as [X _].
    rewrite X. fold S0. cbn [den]. unfold decide. destruct (ClassicalDescription.excluded_middle_informative _) as [Y|Y]; split; auto; try discriminate. intros Z. destruct (Y Z).
  Qed.
End Sound.
