(** Concrete inputs meeting the hypotheses of PropertiesIte.v. *)
From Coq Require Import ZArith Reals List Bool Lia.
From Flocq Require Import IEEE754.BinarySingleNaN.
From Verif Require Import Dbl DblProofs Syntax Sem FormulaCons SpecForm IEval IteElim SpecIte IteElimProofs ExamplesForm.
Import ListNotations.

(** Operators that perform no simplification, and no constant folding. *)
Definition kplain : eops := {| k_add := EAdd; k_mul := EMul; k_un := EUn; k_bin := EBin |}.
Definition nofold : expr -> expr -> option dbl := fun _ _ => None.

Lemma kplain_exact M D n : node_exact M D kplain n.
Proof. assert (E : rebuild kplain n = n) by (destruct n; reflexivity). unfold node_exact. rewrite E. repeat split; auto using incl_refl. Qed.
Lemma nofold_exact M a b : cmp_exact M nofold a b.
Proof. intros op rho. reflexivity. Qed.

(** (if x > y then (if b then y else x) else z) > x  and  forall z. (if z > y then z else y) >= y *)
Definition ite_in : formula :=
  FAnd [FRel RGt (EIte (FRel RGt (EVar vx) (EVar vy)) (EIte (FVar vb) (EVar vy) (EVar vx)) (EVar vz)) (EVar vx);
        FForall [vz] (FRel RGeq (EIte (FRel RGt (EVar vz) (EVar vy)) (EVar vz) (EVar vy)) (EVar vy))].

Lemma ite_in_bnd : bnd 10 (avF ite_in).
Proof. intros v Hv. cbn in Hv. repeat (destruct Hv as [<-|Hv]; [cbn; lia|]). destruct Hv. Qed.
Lemma ite_in_run :
  let (f', s) := ite_process nofold kplain ite_in 10 in
  length (it_vars s) = 2 /\ it_next s = 13 /\ f' <> ite_in /\ hasIteF ite_in = true.
Proof. vm_compute. repeat split. discriminate. Qed.
