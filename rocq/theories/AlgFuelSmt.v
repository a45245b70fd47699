(** * Reading an SMT-LIB file ends *)
From Coq Require Import ZArith List Bool Arith Lia Permutation.
From Flocq Require Import IEEE754.BinarySingleNaN.
From Verif Require Import Dbl Syntax FormulaCons MathConv Order ExprAlg Subst Context AlgFuel AlgFuelTop Smt2 Smt2Proofs Dr Interval Minim MinimProofs VarSet.
Import ListNotations.
Local Open Scope comp_scope.
#[local] Opaque deq dZ done dzero dnone dtwo dep av mk_add mk_mul mk_sub mk_neg mk_relm mk_div mk_un mk_bin SubstituteE SubstituteF mk_and mk_or mk_not mk_forall mk_imply mk_ite.

Section Front.
  Variables (fpow : dbl -> dbl -> dbl) (alloc : nat -> nat).
  Ltac eb := match goal with
    | |- ends (fun n => bind (@?f n) (fun a => @?g n a)) => apply (ends_bind f (fun a n => g n a)); [|intros ?]
    end.
  Lemma ends_getE t : ends (fun _ => getE t). Proof. apply ends_const. destruct t; discriminate. Qed.
  Lemma ends_getF t : ends (fun _ => getF t). Proof. apply ends_const. destruct t; discriminate. Qed.
  Lemma ends_thr {A} : ends (fun _ => @throw A). Proof. apply ends_const. discriminate. Qed.
  Ltac e1 := first [ apply ends_ret | apply ends_thr | apply ends_add | apply ends_mul | apply ends_sub | apply ends_neg | apply ends_relm | apply ends_div | apply ends_un | apply ends_bin
    | apply ends_SubstituteE | apply ends_SubstituteF | apply ends_getE | apply ends_getF | eassumption | eb ].

  Lemma ends_elim_bools vs : forall f, ends (fun n => elim_bools fpow n vs f).
  Proof. induction vs as [|b r IH]; intros f; cbn [elim_bools]; [e1|]. destruct (vtype_eqb (vty b) BOOLEAN); [|apply IH]. repeat e1. apply IH. Qed.
  Lemma ends_domain_of q : ends (fun n => domain_of fpow n q).
  Proof.
    induction q as [|[v [l u]] r IH]; cbn [domain_of]; [e1|]. eb; [exact IH|].
    destruct ((is_finite l || is_finite u) && vtype_eqb (vty v) BOOLEAN); [e1|]. destruct (is_finite l), (is_finite u); repeat e1.
  Qed.
  Lemma ends_mk_quant vs dom f s : ends (fun n => mk_quant fpow n vs dom f s).
  Proof. unfold mk_quant. eb; [apply ends_elim_bools|e1]. Qed.
  Lemma ends_bind_lets bs : forall s, ends (fun n => bind_lets fpow n alloc bs s).
  Proof.
    induction bs as [|[x [e|f]] r IH]; intros s; cbn [bind_lets]; [e1| |].
    - destruct (declare_local alloc x SoReal s). repeat e1. apply IH.
    - destruct (declare_local alloc x SoBool s). apply IH.
  Qed.
  Lemma ends_term_subst t v a : ends (fun n => term_subst fpow n t v a).
  Proof. destruct a, t; cbn [term_subst]; repeat e1. Qed.
  Lemma ends_apply_args ps : forall t args, ends (fun n => apply_args fpow n t ps args).
  Proof.
    induction ps as [|p ps IH]; intros t args; cbn [apply_args]; [e1|]. destruct args as [|a args]; [e1|].
    destruct (type_ok a (vty p)); [|e1]. eb; [apply ends_term_subst|apply IH].
  Qed.
  Lemma ends_apply_fun fd args : ends (fun n => apply_fun fpow n fd args).
  Proof. unfold apply_fun. destruct (negb _); [e1|]. destruct (negb _); [e1|]. apply ends_apply_args. Qed.
  Lemma ends_fold_form st l : forall f, ends (fun _ => fold_form st l f).
  Proof. induction l as [|t r IH]; intros f; cbn [fold_form]; [e1|]. eb; [e1|apply IH]. Qed.
  Lemma ends_fold_ari o l : forall e, ends (fun n => fold_ari fpow n o l e).
  Proof. induction l as [|t r IH]; intros e; cbn [fold_ari]; [e1|]. eb; [e1|]. eb; [destruct o; cbn [ari_step]; e1|apply IH]. Qed.

  Definition PE (t : sterm) : Prop := forall s, ends (fun n => elab fpow n alloc t s).
  Lemma ends_elabs l : Forall PE l -> forall s, ends (fun n => elabs (elab fpow n alloc) l s).
  Proof. induction 1 as [|a r Ha Hr IH]; intros s; cbn [elabs]; [e1|]. eb; [apply Ha|]. eb; [apply IH|e1]. Qed.
  Lemma ends_elab_binds l : Forall PE (map snd l) -> forall s, ends (fun n => elab_binds (elab fpow n alloc) l s).
  Proof. induction l as [|[x a] r IH]; cbn [map snd]; intros H s; cbn [elab_binds]; [e1|]. inversion_clear H as [|? ? Ha Hr]. eb; [apply Ha|]. eb; [apply (IH Hr)|e1]. Qed.
  Lemma ends_elab t : PE t.
  Proof.
    induction t using sterm_ind2; intros s; cbn [elab]; [apply ends_ret|apply ends_ret|destruct (assoc x (d_scope s)); [apply ends_ret|apply ends_thr]|apply ends_ret|apply ends_ret|..].
    - eb; [apply IHt1|]. eb; [apply IHt2|]. destruct (fst a), (fst a0); repeat e1.
    - eb; [apply IHt1|]. eb; [apply IHt2|]. eb; [apply ends_getE|]. eb; [apply ends_getE|]. eb; [apply ends_relm|apply ends_ret].
    - eb; [apply ends_elabs; assumption|]. eb; [apply ends_fold_form|e1].
    - eb; [apply ends_elabs; assumption|]. eb; [apply ends_fold_form|e1].
    - eb; [apply ends_elabs; assumption|]. eb; [apply ends_fold_form|e1].
    - eb; [apply IHt|]. eb; [apply ends_getF|apply ends_ret].
    - eb; [apply IHt1|]. eb; [apply IHt2|]. eb; [apply ends_getF|]. eb; [apply ends_getF|apply ends_ret].
    - eb; [apply IHt1|]. eb; [apply IHt2|]. eb; [apply IHt3|]. eb; [e1|]. destruct (fst a0), (fst a1); repeat e1.
    - destruct (reg_binders alloc bs s) as [q s1]. eb; [apply ends_domain_of|]. eb; [apply IHt|]. eb; [e1|]. eb; [apply ends_mk_quant|e1].
    - eb; [apply ends_elab_binds; assumption|]. eb; [apply ends_bind_lets|]. eb; [apply IHt|e1].
    - eb; [apply IHt|]. eb; [apply ends_getE|]. eb; [apply ends_neg|apply ends_ret].
    - eb; [apply IHt|]. eb; [apply ends_elabs; assumption|]. destruct (fst a0) as [|t0 l0]; [e1|]. eb; [e1|]. eb; [apply (ends_fold_ari o (t0 :: l0))|e1].
    - eb; [apply IHt|]. eb; [apply ends_getE|]. eb; [apply ends_un|apply ends_ret].
    - eb; [apply IHt1|]. eb; [apply IHt2|]. eb; [apply ends_getE|]. eb; [apply ends_getE|]. eb; [apply ends_bin|apply ends_ret].
    - eb; [apply ends_elabs; assumption|]. destruct (assoc f (d_funs (snd a))); [|e1]. eb; [apply ends_apply_fun|e1].
  Qed.
  Lemma ends_command c s : ends (fun n => command fpow n alloc c s).
  Proof.
    destruct c; cbn [command]; try apply ends_ret.
    - destruct (reg_params alloc ps s) as [vs s1]. eb; [apply ends_elab|]. destruct vs; [|e1].
      destruct (declare_var alloc f so None (with_scope (d_scope s) (snd a))) as [v s3]. destruct (negb _); [e1|]. destruct (fst a); repeat e1.
    - eb; [apply ends_elab|repeat e1].
    - destruct (Nat.eqb k 0); e1.
    - destruct (Nat.eqb k 0); e1.
  Qed.
  Lemma ends_script cs : forall s, ends (fun n => script fpow n alloc cs s).
  Proof. induction cs as [|c r IH]; intros s; cbn [script]; [e1|]. eb; [apply ends_command|apply IH]. Qed.

  (** .dr files *)
  Lemma ends_dr_exp sc e : ends (fun n => dr_exp fpow n sc e).
  Proof.
    induction e; cbn [dr_exp]; [apply ends_ret|destruct (assoc x sc); [apply ends_ret|apply ends_thr]|..]; (eb; [eassumption|]).
    1, 2, 3: eb; [eassumption|]. - apply ends_add. - apply ends_sub. - apply ends_mul. - apply ends_neg. - apply ends_un. - eb; [eassumption|apply ends_bin].
  Qed.
  Lemma ends_dr_form sc f : ends (fun n => dr_form fpow n sc f).
  Proof.
    induction f; cbn [dr_form].
    - eb; [apply ends_dr_exp|]. eb; [apply ends_dr_exp|apply ends_relm].
    - eb; [eassumption|]. eb; [eassumption|apply ends_ret].
    - eb; [eassumption|]. eb; [eassumption|apply ends_ret].
    - eb; [eassumption|]. eb; [eassumption|apply ends_ret].
    - eb; [eassumption|apply ends_ret].
  Qed.
  Lemma ends_evaluate evl e : ends (fun _ => evaluate evl e).
  Proof. apply ends_const. unfold evaluate. destruct (evl e); [|discriminate]. destruct (is_nan d); discriminate. Qed.
  Lemma ends_decls evl ds : forall sc nx, ends (fun n => dr_decls fpow n evl ds sc nx).
  Proof.
    induction ds as [|d ds IH]; intros sc nx; cbn [dr_decls]; [apply ends_ret|]. eb; [apply ends_dr_exp|]. eb; [destruct (dd_ub d); [apply ends_dr_exp|apply ends_ret]|].
    eb; [apply ends_evaluate|]. eb; [apply ends_evaluate|]. eb; [apply IH|apply ends_ret].
  Qed.
  Lemma ends_collect {A B} (f : nat -> A -> comp B) l : (forall a, ends (fun n => f n a)) -> ends (fun n => collect (f n) l).
  Proof. intros H. induction l as [|a l IH]; cbn [collect]; [apply ends_ret|]. eb; [apply H|]. eb; [exact IH|apply ends_ret]. Qed.
  Lemma ends_dr_calls evl d nx : ends (fun n => dr_calls fpow n evl d nx).
  Proof.
    unfold dr_calls. eb; [apply ends_decls|]. eb; [apply (ends_collect (fun n => dr_form fpow n (fst a))); intros; apply ends_dr_form|].
    eb; [apply (ends_collect (fun n => dr_exp fpow n (fst a))); intros; apply ends_dr_exp|apply ends_ret].
  Qed.

  (** Minimize: every round of the search for constraints but the last adds one *)
  Lemma pass_adds st stack : incl st stack -> forall xs cs going xs' cs' going', NoDup cs -> incl cs stack -> mn_pass st xs cs going = (xs', cs', going') ->
    NoDup cs' /\ incl cs' stack /\ length cs <= length cs' /\ (going' = true -> going = true \/ length cs < length cs').
  Proof.
    induction st as [|f st IH]; intros Hst xs cs going xs' cs' going' N Hc E; cbn [mn_pass] in E.
    - assert (cs' = cs /\ going' = going) as [-> ->] by (split; congruence). auto.
    - assert (Hst' : incl st stack) by (intros g Hg; apply Hst; right; exact Hg).
      destruct (negb (fmem f cs) && have_intersection xs (VarSet.vs_of (fvF f)))%bool eqn:C.
      + apply andb_true_iff in C. destruct C as [C _]. apply negb_true_iff in C.
        assert (N2 : NoDup (cs ++ [f])).
        { apply (Permutation_NoDup (Permutation_cons_append cs f)). constructor; [intros X; apply FormulaConsProofs.fmem_In in X; congruence|exact N]. }
        assert (H2 : incl (cs ++ [f]) stack).
        { intros g H. apply in_app_or in H. destruct H as [H|[<-|[]]]; [apply Hc; exact H|apply Hst; left; reflexivity]. }
        destruct (IH Hst' _ _ _ _ _ _ N2 H2 E) as (B1 & B2 & B3 & B4).
        rewrite app_length in B3. cbn [length] in B3. split; [exact B1|]. split; [exact B2|]. split; [lia|]. intros _. right. lia.
      + exact (IH Hst' _ _ _ _ _ _ N Hc E).
  Qed.
  Lemma close_ends k stack : forall xs cs, NoDup cs -> incl cs stack -> length stack < k + length cs -> exists q, mn_close k stack xs cs = (Val q, []).
  Proof.
    induction k as [|k IH]; intros xs cs N Hc L; [pose proof (NoDup_incl_length N Hc); lia|].
    cbn [mn_close]. destruct (mn_pass stack xs cs false) as [[xs1 cs1] going] eqn:E.
    destruct (pass_adds stack stack (incl_refl _) _ _ _ _ _ _ N Hc E) as (B1 & B2 & B3 & B4). destruct going; [|eexists; reflexivity].
    apply IH; [exact B1|exact B2|]. destruct (B4 eq_refl) as [X|X]; [discriminate|lia].
  Qed.
  Lemma ends_mn_vars b xs : forall i phi, ends (fun n => mn_vars fpow n b xs i phi).
  Proof.
    induction xs as [|x xs IH]; intros i phi; cbn [mn_vars]; [apply ends_ret|]. destruct (vtype_eqb (vty x) BOOLEAN); [apply ends_thr|].
    eb; [destruct (is_finite _); [eb; [apply ends_relm|apply ends_ret]|apply ends_ret]|]. eb; [destruct (is_finite _); [eb; [apply ends_relm|apply ends_ret]|apply ends_ret]|].
    eb; [apply IH|apply ends_ret].
  Qed.
  Lemma ends_mn_cons sub cs : forall phi, ends (fun n => mn_cons fpow n sub cs phi).
  Proof. induction cs as [|f cs IH]; intros phi; cbn [mn_cons]; [apply ends_ret|]. eb; [apply ends_SubstituteF|apply IH]. Qed.
  Lemma ends_mn_objs sub fs : forall i zb q, ends (fun n => mn_objs fpow n sub fs i zb q).
  Proof. induction fs as [|f fs IH]; intros i zb q; cbn [mn_objs]; [apply ends_ret|]. eb; [apply ends_relm|]. eb; [apply ends_SubstituteE|]. eb; [apply ends_relm|]. eb; [apply IH|apply ends_ret]. Qed.
  Lemma ends_minimize fs c : ends (fun n => minimize fpow n fs c).
  Proof.
    unfold minimize. destruct (cx_box c) as [b|]; [|apply ends_const; discriminate]. eb; [|apply ends_ret]. unfold mn_plan.
    eb; [apply ends_const; destruct (close_ends (S (length (Scoped.sv_vec (cx_stack c)))) (Scoped.sv_vec (cx_stack c)) (mn_xvars fs) [] (NoDup_nil _) (fun g (H : In g []) => match H with end)) as [q E]; [cbn [length]; lia|rewrite E; discriminate]|]. destruct a as [xs cs].
    eb; [apply ends_mn_vars|]. destruct a as [sub phi]. eb; [apply ends_mn_cons|]. eb; [apply ends_mn_objs|]. destruct a0 as [[zb q] zs]. apply ends_ret.
  Qed.
End Front.

Lemma functions_finish fpow o o' a b : fst (mk_bin fpow o a b) <> Fuel /\ fst (mk_un o' a) <> Fuel.
Proof. destruct (ends_bin fpow o a b) as (n & H). destruct (ends_un o' a) as (m & H'). split; [exact (proj2 (H n (le_n n)))|exact (proj2 (H' m (le_n m)))]. Qed.
