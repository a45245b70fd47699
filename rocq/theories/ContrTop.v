(** Statements about pruning in the form used by the property theorems. *)
From Coq Require Import ZArith Reals List Bool.
From Flocq Require Import IEEE754.BinarySingleNaN.
From Verif Require Import Dbl Syntax Sem Interval MathConv SpecForm FormulaCons Nnf IEval IEvalProofs Contr ContrProofs IbexConv IbexConvProofs.
Import ListNotations.

Lemma prune_top M D Orc term n c s s' : box_ok (cs_box s) -> c_ok M D Orc (bvars (cs_box s)) c -> prune Orc term n c s = Some s' ->
  bvars (cs_box s') = bvars (cs_box s) /\ box_ok (cs_box s') /\
  (forall i x, imem x (b_get (cs_box s') i) -> imem x (b_get (cs_box s) i)) /\
  (forall rho, well_typed rho -> in_box rho (cs_box s) -> c_sem M D c rho -> in_box rho (cs_box s')).
Proof. intros K C E. destruct (prune_keeps M D Orc term n c s s' K C E) as [A B C' D' E' F G]. auto. Qed.

Lemma generate_top M D L esub eneg n fa term use_p fold f c m s s' :
  ibex_ok M D L -> eneg_faithful M D eneg -> sqrt_ok M D ->
  unfolded fold f -> rels_ok (fun _ a b => esub_faithful M D esub a b) f ->
  box_ok (cs_box s) -> (forall v, In v (fvF f) -> In v (bvars (cs_box s))) ->
  generate esub eneg (bvars (cs_box s)) use_p fold n f = Some c ->
  prune (ibex_oracles L esub eneg n fa) term m c s = Some s' ->
  bvars (cs_box s') = bvars (cs_box s) /\ box_ok (cs_box s') /\
  (forall i x, imem x (b_get (cs_box s') i) -> imem x (b_get (cs_box s) i)) /\
  (forall rho, well_typed rho -> in_box rho (cs_box s) -> solves M D f rho -> in_box rho (cs_box s')).
Proof.
  intros HL Hn Hq U R K V G P. destruct (generate_good M D L esub eneg n fa HL Hn Hq use_p fold _ f c U R V G) as [A B].
  destruct (prune_top _ _ _ _ _ _ _ _ K A P) as (X & Y & Z & W). repeat (split; auto).
Qed.

Lemma convert_top M D esub eneg vars n f c : eneg_faithful M D eneg -> sqrt_ok M D ->
  (forall a b, lit_sides f = Some (a, b) -> esub_faithful M D esub a b) ->
  ibex_convert esub eneg vars n f = COk (Some c) ->
  (forall rho p, (forall i v, nth_error vars i = Some v -> p i = rho v) -> defF M D f rho -> (ctr_sol M D c p <-> holds M f rho)) /\
  (forall i, In i (syms (fst c)) -> exists v, In v (fvF f) /\ nth_error vars i = Some v).
Proof.
  intros Hn Hq HS E. destruct (conv_f_ok M D esub eneg vars Hn Hq n f true c HS E) as [A B]. split; auto.
  intros rho p Hp Hd. destruct (A rho p Hp Hd) as [A1 A2]. unfold ctr_sol. tauto.
Qed.
