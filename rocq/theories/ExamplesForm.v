(** Concrete formulas used to show that the hypotheses of the theorems are met, and witnesses for
    the refutations. *)
From Coq Require Import ZArith Reals Lra Lia List Bool.
From Flocq Require Import IEEE754.BinarySingleNaN.
From Verif Require Import Dbl DblProofs Syntax Sem SemProofs FormulaCons FormulaConsProofs SpecForm Nnf NnfProofs
  PredAbs PredAbsProofs Tseitin TseitinProofs TseitinShape.
Import ListNotations.

Definition vx := mkVar 0 CONTINUOUS.
Definition vy := mkVar 1 CONTINUOUS.
Definition vz := mkVar 2 CONTINUOUS.
Definition vb := mkVar 3 BOOLEAN.
Definition vc := mkVar 4 BOOLEAN.
Definition vi := mkVar 5 INTEGER.
Definition ex_x := EVar vx. Definition ex_y := EVar vy. Definition ex_z := EVar vz.
Definition zero := EConst dzero.
Definition no_fold : expr -> expr -> option dbl := fun _ _ => None.
(** Folds only differences of two constants (as the simplifier does), in binary64. *)
Definition const_fold (a b : expr) : option dbl :=
  match a, b with EConst x, EConst y => Some (dsub x y) | _, _ => None end.

(** b or not (x > 0 and (y <= x or not c)) *)
Definition ex1 : formula :=
  mk_or (FVar vb)
    (mk_not (mk_and (mk_rel const_fold RGt ex_x zero)
                    (mk_or (mk_rel const_fold RLeq ex_y ex_x) (mk_not (FVar vc))))).

Lemma ex1_unfolded : unfolded const_fold ex1.
Proof.
  unfold ex1. cbv [mk_rel const_fold ex_x ex_y zero].
  repeat (first [ apply ro_or; intros g Hg; simpl in Hg; repeat destruct Hg as [<-|Hg]; try contradiction
                | apply ro_and; intros g Hg; simpl in Hg; repeat destruct Hg as [<-|Hg]; try contradiction
                | apply ro_not | apply ro_var | apply ro_rel; reflexivity ]).
Qed.
Lemma ex1_api : api_form ex1.
Proof. unfold ex1. apply api_or; [constructor|]. apply api_not, api_and; [apply api_rel|]. apply api_or; [apply api_rel|]. apply api_not; constructor. Qed.

Lemma ex1_ids : forall v, In v (fvF ex1) -> vid v < 100.
Proof. cbv [ex1 mk_rel const_fold ex_x ex_y zero]. intros v Hv. simpl in Hv. repeat destruct Hv as [<-|Hv]; simpl; try lia; try contradiction. Qed.

(** The conversion of [ex1] is not trivial: it introduces four definitions. *)
Example ex1_tseitin : length (ts_map (snd (ts_convert const_fold ex1 100))) = 4
  /\ exists cs, fst (ts_convert const_fold ex1 100) = Some cs /\ length cs = 9.
Proof. vm_compute. split; [reflexivity|]. eexists; split; reflexivity. Qed.

(** A quantified formula nested below a disjunction:
    b or forall y. ((x > 0 or z > 0) and y > 0) *)
Definition ex2 : formula :=
  mk_or (FVar vb) (mk_forall [vy]
    (mk_and (mk_or (FRel RGt ex_x zero) (FRel RGt ex_z zero)) (FRel RGt ex_y zero))).
(** c or (b and forall {}. b) *)
Definition ex3 : formula := mk_or (FVar vc) (mk_and (FVar vb) (mk_forall [vy] (FVar vb))).

Lemma ex2_bad_clause : exists cs s c, ts_convert no_fold ex2 100 = (Some cs, s) /\ In c cs /\ ~ clause c.
Proof.
  destruct (ts_convert no_fold ex2 100) as [[cs|] s] eqn:E; [|vm_compute in E; discriminate].
  assert (H : In (FOr [FNot (FOr [FRel RGt ex_x zero; FRel RGt ex_z zero]);
                       FNot (FForall [vy] (FRel RGt ex_y zero)); FVar (mkVar 100 BOOLEAN)]) cs).
  { vm_compute in E. injection E as <- _. vm_compute. tauto. }
  exists cs, s. eexists. split; [reflexivity|]. split; [exact H|].
  intros C. inversion C as [| |f0 L|fs L]; subst.
  - inversion L as [f1 A|]; inversion A.
  - specialize (L _ (or_introl eq_refl)). inversion L as [f1 A|f1 A]; inversion A.
Qed.
Lemma ex3_throws : fst (ts_convert no_fold ex3 100) = None.
Proof. vm_compute. reflexivity. Qed.
Lemma no_fold_unfolded f : unfolded no_fold f.
Proof.
  induction f using formula_ind'; try (now constructor); constructor; auto; rewrite Forall_forall in H; auto.
Qed.

(** ** Constant folding of comparisons is done in binary64: 1e16 + 1 > 1e16 is folded to false. *)
Definition d1e16 : dbl := mkd 10000000000000000 0.
(** (1e16 + 1) - 1e16, computed the way ExpressionAddFactory does: the constants of both operands
    are added in binary64. *)
Definition e_big : expr := EConst (dadd d1e16 (dZ 1)).
Lemma big_folded : mk_rel const_fold RGt e_big (EConst d1e16) = FFalse.
Proof. vm_compute. reflexivity. Qed.
