(** * Substitution and differentiation end *)
From Coq Require Import ZArith List Bool Arith Lia.
From Flocq Require Import IEEE754.BinarySingleNaN.
From Verif Require Import Dbl Syntax FormulaCons MathConv Order ExprAlg Subst Diff AlgFuel.
Import ListNotations.
Local Open Scope comp_scope.
#[local] Opaque deq dZ done dzero dnone dtwo dep av.

Lemma ends_ext {A} (f g : nat -> comp A) : (forall n, f n = g n) -> ends f -> ends g.
Proof. intros E (n0 & H). exists n0. intros n Hn. rewrite <- !E. apply H. exact Hn. Qed.
Lemma ends_ret {A} (a : A) : ends (fun _ => ret a). Proof. apply ends_const. discriminate. Qed.
Lemma ends_throw {A} : ends (fun _ => (@Throw A, [])). Proof. apply ends_const. discriminate. Qed.
Section Top.
  Variable fpow : dbl -> dbl -> dbl.
  Lemma ends_pow b x : ends (fun _ => mk_pow fpow b x). Proof. apply ends_const. exact (wp_nofuel _ _ (mkpow_any fpow b x)). Qed.
  Lemma ends_div a b : ends (fun _ => mk_div a b). Proof. apply ends_const. exact (wp_nofuel _ _ (mkdiv_wp a b)). Qed.
  Lemma ends_mget c m : ends (fun _ => mul_get fpow c m). Proof. apply ends_const. apply get_nofuel. Qed.
  Lemma ends_un o a : ends (fun _ => mk_un o a).
  Proof. apply ends_const. destruct o; try discriminate; [destruct a; discriminate|]. destruct a as [| | | | | |o a b| |]; try discriminate. destruct o; try discriminate. cbn [mk_un]. destruct (is_c b dtwo); [destruct a; discriminate|discriminate]. Qed.
  Lemma ends_bin o a b : ends (fun _ => mk_bin fpow o a b).
  Proof.
    destruct o; cbn [mk_bin]; [apply ends_div|apply ends_pow|apply ends_ret| |]; apply ends_const; unfold mk_mm; (destruct (expr_eqb a b); [discriminate|]); destruct a; try discriminate; destruct b; discriminate.
  Qed.
  Lemma ends_add_expr e f : ends (fun _ => add_expr fpow e f).
  Proof. apply ends_const. destruct f as [c m]. exact (wp_nofuel _ _ (add_expr_wp fpow e c m)). Qed.
  Lemma ends_add_get f : ends (fun n => add_get (mk_mul fpow n) f).
  Proof.
    destruct f as [c [|[t k] [|q m]]]; cbn [add_get]; try apply ends_ret. destruct (deq c dzero); [apply ends_mul|apply ends_ret].
  Qed.
  Lemma ends_mul_expr e f : ends (fun n => mul_expr (mk_add fpow n) (mk_mul fpow n) e f).
  Proof.
    destruct f as [c m]. set (a0 := dep e + pmax m).
    apply (ends_intro _ (S a0) (fun f => xs_ok a0 (snd f))).
    - destruct (enough fpow (S a0)) as (Hcc & Ha & _). apply mul_expr_wp; [apply Hcc; lia|intros; apply Ha; lia| | |].
      + unfold a0. pose proof (dep_pos e). lia.
      + unfold a0. lia.
      + apply pmax_xs. unfold a0. lia.
    - intros n Hn. destruct (fuel_more fpow _ _ Hn) as [La Lm]. apply mul_expr_less; assumption.
  Qed.
  Ltac eb := match goal with
    | |- ends (fun n => bind (@?f n) (fun a => @?g n a)) => apply (ends_bind f (fun a n => g n a)); [|intros ?]
    end.
  Ltac e1 := first [ apply ends_ret | apply ends_throw | apply ends_add | apply ends_mul | apply ends_sub | apply ends_neg | apply ends_relm | apply ends_pow | apply ends_div | apply ends_mget | apply ends_un | apply ends_bin
    | apply ends_add_expr | apply ends_add_get | apply ends_mul_expr | eassumption | eb ].

  Lemma ends_add_loop (sub : nat -> expr -> comp expr) ts : Forall (fun p => ends (fun n => sub n (fst p))) ts -> forall f, ends (fun n => add_loop fpow n (sub n) ts f).
  Proof. induction 1 as [|[a k] ts Ha Ht IH]; intros f; cbn [add_loop]; [apply ends_ret|]. cbn [fst] in Ha. repeat e1. apply IH. Qed.
  Lemma ends_mul_loop (sub : nat -> expr -> comp expr) ts : Forall (fun p => ends (fun n => sub n (fst p)) /\ ends (fun n => sub n (snd p))) ts -> forall f, ends (fun n => mul_loop fpow n (sub n) ts f).
  Proof. induction 1 as [|[b x] ts [Hb Hx] Ht IH]; intros f; cbn [mul_loop]; [apply ends_ret|]. cbn [fst snd] in *. repeat e1. apply IH. Qed.
  Lemma ends_and_loop (sub : nat -> formula -> comp formula) fs : Forall (fun f => ends (fun n => sub n f)) fs -> forall acc ch, ends (fun n => and_loop (sub n) fs acc ch).
  Proof. induction 1 as [|f fs Hf Hs IH]; intros acc ch; cbn [and_loop]; [apply ends_ret|]. eb; [exact Hf|]. destruct (is_false _); [apply ends_ret|apply IH]. Qed.
  Lemma ends_or_loop (sub : nat -> formula -> comp formula) fs : Forall (fun f => ends (fun n => sub n f)) fs -> forall acc ch, ends (fun n => or_loop (sub n) fs acc ch).
  Proof. induction 1 as [|f fs Hf Hs IH]; intros acc ch; cbn [or_loop]; [apply ends_ret|]. eb; [exact Hf|]. destruct (is_true _); [apply ends_ret|apply IH]. Qed.

  Lemma ends_subst : (forall e sE sF, ends (fun n => substE fpow n sE sF e)) /\ (forall f sE sF, ends (fun n => substF fpow n sE sF f)).
  Proof.
    apply (expr_formula_ind2 (fun e => forall sE sF, ends (fun n => substE fpow n sE sF e)) (fun f => forall sE sF, ends (fun n => substF fpow n sE sF f))).
    - intros. apply ends_ret.
    - intros. apply ends_ret.
    - intros. apply ends_ret.
    - intros c ts H sE sF. cbn [substE substF]. eb; [|apply ends_add_get].
      apply (ends_add_loop (fun n => substE fpow n sE sF)). apply Forall_forall. intros p Hp. rewrite Forall_forall in H. exact (H p Hp sE sF).
    - intros c ts H sE sF. cbn [substE substF]. eb; [|apply ends_mget].
      apply (ends_mul_loop (fun n => substE fpow n sE sF)). apply Forall_forall. intros p Hp. rewrite Forall_forall in H. destruct (H p Hp) as [H1 H2]. split; [exact (H1 sE sF)|exact (H2 sE sF)].
    - intros o a IH sE sF. cbn [substE substF]. eb; [apply IH|]. destruct (expr_eqb _ _); e1.
    - intros o a b IHa IHb sE sF. cbn [substE substF]. eb; [apply IHa|]. eb; [apply IHb|]. destruct (_ && _); e1.
    - intros f a b IHf IHa IHb sE sF. cbn [substE substF]. eb; [apply IHf|]. eb; [apply IHa|]. eb; [apply IHb|]. destruct (_ && _); e1.
    - intros. apply ends_ret.
    - intros. apply ends_ret.
    - intros. apply ends_ret.
    - intros. apply ends_ret.
    - intros o a b IHa IHb sE sF. cbn [substE substF]. eb; [apply IHa|]. eb; [apply IHb|]. destruct (_ && _); e1.
    - intros fs H sE sF. cbn [substE substF]. eb; [|apply ends_ret]. apply (ends_and_loop (fun n => substF fpow n sE sF)). apply Forall_forall. intros p Hp. rewrite Forall_forall in H. exact (H p Hp sE sF).
    - intros fs H sE sF. cbn [substE substF]. eb; [|apply ends_ret]. apply (ends_or_loop (fun n => substF fpow n sE sF)). apply Forall_forall. intros p Hp. rewrite Forall_forall in H. exact (H p Hp sE sF).
    - intros f IH sE sF. cbn [substE substF]. eb; [apply IH|]. destruct (formula_eqb _ _); e1.
    - intros vs f IH sE sF. cbn [substE substF]. eb; [apply IH|]. destruct (formula_eqb _ _); e1.
  Qed.
  Lemma ends_SubstituteE sE sF e : ends (fun n => SubstituteE fpow n sE sF e).
  Proof. unfold SubstituteE. destruct sE; [destruct sF|]; try apply ends_ret; apply ends_subst. Qed.
  Lemma ends_SubstituteF sE sF f : ends (fun n => SubstituteF fpow n sE sF f).
  Proof. unfold SubstituteF. destruct sE; [destruct sF|]; try apply ends_ret; apply ends_subst. Qed.

  Lemma ends_diff_pow (f g : expr) (f' g' : nat -> comp expr) : ends f' -> ends g' -> ends (fun n => diff_pow fpow n f g (f' n) (g' n)).
  Proof. intros Hf Hg. unfold diff_pow. destruct (isc g); [repeat e1|]. destruct (isc f); repeat e1. Qed.
  Lemma ends_diff_un o f df : ends (fun n => diff_un fpow n o f df).
  Proof. unfold diff_un. destruct o; repeat e1. Qed.
  Lemma ends_diff x e : ends (fun n => diff fpow n x e).
  Proof.
    revert e. apply (expr_ind2 (fun e => ends (fun n => diff fpow n x e)) (fun _ => True)); try exact Logic.I; try (intros; exact Logic.I).
    - intros c. cbn [diff]. destruct (is_nan c); e1.
    - intros. apply ends_ret.
    - intros. apply ends_ret.
    - intros c ts H. cbn [diff].
      assert (G : forall acc, ends (fun n => diff_sum fpow n (diff fpow n x) ts acc)); [|apply G].
      induction H as [|[a k] ts Ha Ht IH]; intros acc; cbn [diff_sum]; [apply ends_ret|]. cbn [fst] in Ha. eb; [exact Ha|]. repeat e1. apply IH.
    - intros c ts H. cbn [diff]. eb; [apply ends_mget|]. eb; [|e1].
      assert (G : forall acc, ends (fun n => diff_prod fpow n (diff fpow n x) a ts acc)); [|apply G].
      induction H as [|[b y] ts [Hb Hy] Ht IH]; intros acc; cbn [diff_prod]; [apply ends_ret|]. cbn [fst snd] in *. eb; [apply (ends_diff_pow b y (fun n => diff fpow n x b) (fun n => diff fpow n x y)); assumption|]. repeat e1. apply IH.
    - intros o a IH. destruct o; try (cbn [diff]; eb; [exact IH|apply ends_diff_un]).
      cbn [diff]. destruct (mem_var _ _); e1.
    - intros o a b IHa IHb. destruct o.
      + cbn [diff]. repeat e1.
      + cbn [diff]. apply (ends_diff_pow a b (fun n => diff fpow n x a) (fun n => diff fpow n x b)); assumption.
      + cbn [diff]. repeat e1.
      + cbn [diff]. destruct (mem_var _ _); e1.
      + cbn [diff]. destruct (mem_var _ _); e1.
    - intros f a b _ _ _. cbn [diff]. destruct (mem_var _ _); e1.
    - intros m vs. cbn [diff]. destruct (mem_var _ _); e1.
  Qed.
End Top.
