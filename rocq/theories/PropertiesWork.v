(** C54: propagation runs until every contractor is at rest, or until a round brings little. *)
From Coq Require Import ZArith Reals List Bool.
From Flocq Require Import Core.Core IEEE754.BinarySingleNaN.
From Verif Require Import Dbl Syntax Sem Interval SpecForm FormulaCons Nnf IEval StdInterp Contr IbexConv ExamplesBox ExamplesContr SpecWork WorkProofs StopProofs Changed ExamplesWork.
Import ListNotations.

(** The worklist contractor, on a box over [vars] without empty components, given contractors that only shrink boxes
    ([c_ok]) and whose behaviour is decided by their own variables.  If a branching dimension is given, the contractors
    that do not read it must be at rest already (the state a parent box left behind).  Then a non-empty result either came
    from the stop rule, or no contractor on the list can narrow it any further. *)
Theorem C54_worklist_reaches_rest (M : interp) (D : pdom) (Orc : oracles) (term : list ival -> list ival -> bool) (vars : list var) (all : list contractor) :
  Forall (c_ok M D Orc vars) all -> Forall single all -> Forall (decided_by_inputs Orc term vars) all -> vars <> [] ->
  forall n s s', box_ok (cs_box s) -> b_full (cs_box s) -> bvars (cs_box s) = vars ->
    (forall i, cs_bp s = Some i -> forall c, In c all -> c_input vars c i = false -> at_rest Orc term c (cs_box s)) ->
    prune Orc term n (CWork all) s = Some s' -> b_empty (cs_box s') = false ->
    term (bvals (cs_box s)) (bvals (cs_box s')) = true \/ forall c, In c all -> at_rest Orc term c (cs_box s').
Proof. exact (work_rest M D Orc term vars all). Qed.
Print Assumptions C54_worklist_reaches_rest.

(** The integer contractor is at rest exactly when every listed component begins and ends at integers. *)
Theorem C54_integer_rest (Orc : oracles) (term : list ival -> list ival -> bool) idx b : box_ok b -> b_full b ->
  (at_rest Orc term (CInteger idx) b <->
   forall i x, In i idx -> imem x (b_get b i) -> exists p q : Z, imem (IZR p) (b_get b i) /\ imem (IZR q) (b_get b i) /\ (IZR p <= x <= IZR q)%R).
Proof. exact (integer_rest Orc term idx b). Qed.
Print Assumptions C54_integer_rest.

(** The plain fixpoint ends on an empty box or after a full round that the stop rule accepted. *)
Theorem C54_fixpoint_last_round (Orc : oracles) (term : list ival -> list ival -> bool) n cs s s' :
  prune Orc term (S n) (CFix cs) s = Some s' -> b_empty (cs_box s') = true \/
  exists s1, seq_run (prune Orc term n) cs s1 = Some s' /\ term (bvals (cs_box s1)) (bvals (cs_box s')) = true.
Proof. exact (fix_last term (prune Orc term n) n cs s s'). Qed.
Print Assumptions C54_fixpoint_last_round.

(** The stop rule the solver uses, although computed in floating point: stopping means no component lost two percent of
    its width or became bounded, going on means some component lost at least 0.9 percent or became bounded. *)
Theorem C54_stop_rule old new :
  Forall2 (fun i j => i_ok i /\ i_ok j /\ i_empty i = false /\ i_empty j = false /\ forall x, imem x j -> imem x i) old new ->
  (default_term old new = true -> Forall2 (fun i j => ~ clear_progress i j) old new) /\
  (default_term old new = false -> exists n i j, nth_error old n = Some i /\ nth_error new n = Some j /\ some_progress i j).
Proof. exact (stop_rule old new). Qed.
Print Assumptions C54_stop_rule.

(** With an unbounded integer variable the worklist contractor never returns, although the plain fixpoint of the same
    contractors on the same box does: rounding (-oo, oo) changes nothing but is reported as a change. *)
Theorem C54_worklist_hangs_refuted : exists all b, box_ok b /\ b_full b /\
  Forall (c_ok Mstd stdD lib_orc (bvars b)) all /\ Forall single all /\ Forall (decided_by_inputs lib_orc default_term (bvars b)) all /\
  (forall n, prune lib_orc default_term n (CWork all) (cs_new b None) = None) /\
  exists n s', prune lib_orc default_term n (CFix all) (cs_new b None) = Some s' /\ b_empty (cs_box s') = false.
Proof. exact hang_example. Qed.
Print Assumptions C54_worklist_hangs_refuted.

(** x <= 3, n >= 2.5 over x in [0,4] and the integer n in [-3,8]: all hypotheses hold and the worklist ends at [0,3] x [3,8]. *)
Example C54_example : Forall (c_ok Mstd stdD lib_orc (bvars exb)) wk /\ Forall single wk /\ Forall (decided_by_inputs lib_orc default_term (bvars exb)) wk /\
  box_ok exb /\ b_full exb /\ comps_are (prune lib_orc default_term 20 (CWork wk) (cs_new exb None)) (IV dzero (dZ 3)) (IV (dZ 3) (dZ 8)) = true.
Proof. exact wk_example. Qed.

(** On a non-empty result a constraint contractor reports as changed only components that did change (the forward-backward
    contractor: only those of the constraint's own variables), and the two that work through the library record their
    constraints as used only if some component changed. *)
Theorem C54_only_changes_reported (Orc : oracles) (term : list ival -> list ival -> bool) n c s s' :
  prune Orc term n c s = Some s' -> box_ok (cs_box s) -> box_ok (cs_box s') -> b_empty (cs_box s') = false ->
  match c with
  | CFwd f =>
      (forall i, cs_out s' i = true -> cs_out s i = true \/ (reads (bvars (cs_box s)) f i /\ differs s s' i)) /\
      (forall g, In g (cs_used s') -> In g (cs_used s) \/ (g = f /\ exists i, reads (bvars (cs_box s)) f i /\ differs s s' i))
  | CPoly fs =>
      (forall i, cs_out s' i = true -> cs_out s i = true \/ differs s s' i) /\
      (forall g, In g (cs_used s') -> In g (cs_used s) \/ (In g fs /\ exists i, differs s s' i))
  | CForall f => forall i, cs_out s' i = true -> cs_out s i = true \/ differs s s' i
  | _ => True
  end.
Proof. exact (only_changes Orc term n c s s'). Qed.
Print Assumptions C54_only_changes_reported.

(** x <= 3 on x in [0,4], n in [-3,8]: the contractor narrows x, reports it and nothing else, and records the constraint. *)
Example C54_only_changes_example : match prune lib_orc default_term 1 (CFwd f_le3) (cs_new exb None) with
  | Some s' => negb (b_empty (cs_box s')) && cs_out s' 0%nat && negb (cs_out s' 1%nat) && Nat.eqb (length (cs_used s')) 1
  | None => false end = true.
Proof. vm_compute. reflexivity. Qed.
