(** A concrete, sound constraint library, and contractors that prune. *)
From Coq Require Import ZArith Reals Lra Lia List Bool ClassicalDescription.
From Flocq Require Import Core.Core IEEE754.BinarySingleNaN.
From Verif Require Import Dbl DblProofs Syntax Sem SemProofs Interval IntervalProofs MathConv MathConvProofs SpecForm FormulaCons Nnf
  IEval IEvalProofs StdInterp Contr ContrProofs IbexConv IbexConvProofs ExamplesForm ExamplesBox ExamplesEval.
Import ListNotations.
Local Open Scope R_scope.
#[local] Opaque dZ mkd.

Lemma dec_true (P : Prop) : P -> dec P = true. Proof. intros H. unfold dec. destruct (excluded_middle_informative P); tauto. Qed.
Lemma dec_false (P : Prop) : ~ P -> dec P = false. Proof. intros H. unfold dec. destruct (excluded_middle_informative P); tauto. Qed.
Lemma half_not_int : ~ isint (/ 2).
Proof. intros [z Hz]. assert (H : IZR (2 * z) = IZR 1) by (rewrite mult_IZR; lra). apply eq_IZR in H. lia. Qed.
Lemma std_sqrt_ok uf rc : sqrt_ok (std uf rc) stdD.
Proof.
  intros x H. cbn in *. unfold powR. rewrite (dec_false _ half_not_int). destruct H as [H|[[-> H]|[_ H]]]; [| |destruct (half_not_int H)].
  - split; [lra|]. rewrite dec_false by lra. rewrite Rpower_sqrt; auto.
  - split; [lra|]. rewrite dec_true by auto. apply sqrt_0.
Qed.
Lemma powR_1 x : powR x 1 = x.
Proof.
  unfold powR. assert (Hi : isint 1) by (exists 1%Z; reflexivity). rewrite dec_true by auto.
  replace (Int_part 1) with 1%Z; [apply powerRZ_1|]. unfold Int_part. rewrite <- (tech_up 1 2); [reflexivity| |]; lra.
Qed.
Lemma pow_def_1 x : pow_def x 1.
Proof. unfold pow_def. destruct (Rtotal_order x 0) as [H|[H|H]]; [right; right|right; left|left; lra]; split; auto; try lra. exists 1%Z; reflexivity. Qed.

(** - e as the product -1 * e ^ 1 *)
Definition plain_neg (e : expr) : expr := EMul (dZ (-1)) [(e, EConst (dZ 1))].
Lemma plain_neg_ok uf rc : eneg_faithful (std uf rc) stdD plain_neg.
Proof.
  intros e. split; [|split].
  - intros F. cbn [plain_neg finE fold_right]. repeat split; auto.
  - intros v. cbn [plain_neg fvE flat_map]. rewrite !app_nil_r. auto.
  - intros rho Hd. cbn [plain_neg defE evalE fold_right std i_bin binR stdD d_bin bin_def]. rewrite one_R, mone_R, powR_1. repeat split; auto; [apply pow_def_1|lra].
Qed.

(** A library that only understands "symbol i minus constant c, compared with 0". *)
Definition bound_of (c : inode * iop) : option (nat * ival) :=
  match c with
  | (NSub (NSym i) (NConst k), o) =>
      if is_finite k then
        match o with
        | OpLeq | OpLt => Some (i, IV dninf k)
        | OpGeq | OpGt => Some (i, IV k dpinf)
        | OpEq => Some (i, IV k k)
        end
      else None
  | _ => None
  end.
Definition lib_backward (c : inode * iop) (iv : list ival) : bool * list ival :=
  match bound_of c with
  | Some (i, d) =>
      if Nat.ltb i (length iv) then
        match i_inter (nth i iv IEmpty) d with
        | IEmpty => (false, map (fun _ => IEmpty) iv)
        | j => (false, upd_nth i j iv)
        end
      else (true, iv)
  | None => (true, iv)
  end.
Definition lib : ibex := {| ib_backward := lib_backward; ib_polytope := fun cs iv => fold_left (fun iv c => snd (lib_backward c iv)) cs iv |}.

Lemma bound_ok c i d : bound_of c = Some (i, d) -> i_ok d /\ In i (syms (fst c)) /\ forall p, ctr_sol Mstd stdD c p -> imem (p i) d.
Proof.
  destruct c as [n o]. unfold bound_of. destruct n as [| | | |a b| | | | | |]; try discriminate. destruct a; try discriminate. destruct b; try discriminate.
  destruct (is_finite c) eqn:F; [|discriminate].
  assert (N : is_nan c = false) by (apply fin_nan; auto).
  assert (R : dle c c = true) by (apply dle_spec; auto; apply ext_le_refl).
  assert (P : deq c dpinf = false) by (destruct c as [|[]| |]; auto; discriminate).
  assert (Q : deq c dninf = false) by (destruct c as [|[]| |]; auto; discriminate).
  assert (L : dle dninf c = true) by (apply dle_spec; auto; exact I).
  assert (U : dle c dpinf = true) by (apply dle_spec; auto; destruct (d2e c); exact I).
  intros E. assert (Ei : i0 = i /\ d = match o with OpLeq | OpLt => IV dninf c | OpGeq | OpGt => IV c dpinf | OpEq => IV c c end) by (destruct o; injection E as <- <-; auto).
  destruct Ei as [-> ->]. split; [destruct o; cbn [i_ok]; auto|]. split; [left; reflexivity|].
  intros p [_ H]. cbn [fst snd evalN] in H. destruct o; cbn [imem relI] in *; rewrite ?(finite_d2e _ F); cbn [ext_le d2e dninf dpinf]; split; auto; lra.
Qed.
Lemma Forall_nth_ok (l : list ival) i : Forall i_ok l -> i_ok (nth i l IEmpty).
Proof. intros F. destruct (Nat.lt_ge_cases i (length l)) as [H|H]; [apply Forall_nth; auto|rewrite nth_overflow; [exact I|exact H]]. Qed.
Lemma lib_backward_ok c iv : Forall i_ok iv -> ibex_step_ok Mstd stdD [c] iv (snd (lib_backward c iv)).
Proof.
  intros K. assert (Same : ibex_step_ok Mstd stdD [c] iv iv).
  { repeat split; auto. intros i x H; exact H. }
  unfold lib_backward. destruct (bound_of c) as [[i d]|] eqn:Eb; [|exact Same]. destruct (Nat.ltb i (length iv)) eqn:El; [|exact Same].
  apply Nat.ltb_lt in El. destruct (bound_ok _ _ _ Eb) as (Kd & Hi & Hm).
  pose proof (Forall_nth_ok iv i K) as Ki.
  pose proof (fun x => i_inter_mem x (nth i iv IEmpty) d Ki Kd) as Hx.
  pose proof (i_inter_ok (nth i iv IEmpty) d) as Kj.
  destruct (i_inter (nth i iv IEmpty) d) as [|l u] eqn:Ej; cbn [snd].
  - assert (Z : forall j, nth j (map (fun _ : ival => IEmpty) iv) IEmpty = IEmpty).
    { intros j. change IEmpty with ((fun _ : ival => IEmpty) IEmpty) at 2. rewrite map_nth. reflexivity. }
    split; [rewrite map_length; auto|]. split; [|split; [|split]].
    + apply Forall_forall. intros x Hxx. apply in_map_iff in Hxx. destruct Hxx as (y & <- & _). exact I.
    + intros j x H. rewrite Z in H. destruct H.
    + intros p Hp Hs j Hj. exfalso. destruct (proj2 (Hx (p i))).
      split; [apply Hp; auto|apply Hm, Hs; left; auto].
    + intros _. left. apply Forall_forall. intros x Hxx. apply in_map_iff in Hxx. destruct Hxx as (y & <- & _). reflexivity.
  - split; [apply upd_nth_length|]. split; [|split; [|split]].
    + apply Forall_upd_nth; auto.
    + intros j x H. destruct (Nat.eq_dec i j) as [<-|N]; [rewrite nth_upd_nth_eq in H by auto; apply Hx in H; apply H|rewrite nth_upd_nth_ne in H; auto].
    + intros p Hp Hs j Hj. rewrite upd_nth_length in Hj. destruct (Nat.eq_dec i j) as [<-|N]; [|rewrite nth_upd_nth_ne; auto].
      rewrite nth_upd_nth_eq by auto. apply Hx. split; [apply Hp; auto|apply Hm, Hs; left; auto].
    + intros F. right. split; [apply Forall_upd_nth; auto|]. intros j Hj Hn. apply nth_upd_nth_ne. intros ->. apply (Hn c); auto. left; auto.
Qed.
Lemma ok_no_member i : i_ok i -> (forall x, ~ imem x i) -> i = IEmpty.
Proof. intros K H. destruct i as [|l u]; auto. destruct (i_ok_member (IV l u) K eq_refl) as [x Hx]. destruct (H x Hx). Qed.
Lemma all_empty_sub (iv iv' : list ival) : Forall i_ok iv' -> iv_sub iv' iv -> Forall (fun i => i = IEmpty) iv -> Forall (fun i => i = IEmpty) iv'.
Proof.
  intros K S F. apply Forall_nth. intros i d Hi. rewrite (nth_indep _ d IEmpty Hi). apply ok_no_member; [apply Forall_nth_ok; auto|].
  intros x Hx. apply S in Hx. destruct (Nat.lt_ge_cases i (length iv)) as [H|H]; [|rewrite nth_overflow in Hx; [exact Hx|exact H]].
  rewrite Forall_forall in F. rewrite (F (nth i iv IEmpty)) in Hx; [exact Hx|apply nth_In; auto].
Qed.
Lemma lib_poly_ok cs : forall iv, Forall i_ok iv -> ibex_step_ok Mstd stdD cs iv (ib_polytope lib cs iv).
Proof.
  cbn [lib ib_polytope]. induction cs as [|c cs IH]; intros iv K; cbn [fold_left].
  - repeat split; auto. intros i x H; exact H.
  - destruct (lib_backward_ok c iv K) as (A1 & A2 & A3 & A4 & A5). set (iv1 := snd (lib_backward c iv)) in *.
    destruct (IH iv1 A2) as (B1 & B2 & B3 & B4 & B5). split; [congruence|]. split; auto. split; [|split].
    + eapply iv_sub_trans; eauto.
    + intros p Hp Hs. apply B4; [apply A4; auto|]; intros d Hd; apply Hs; [destruct Hd as [<-|[]]; left; auto|right; auto].
    + intros F. destruct (A5 F) as [E|[F1 G1]].
      * left. eapply all_empty_sub; eauto.
      * destruct (B5 F1) as [E|[F2 G2]]; [left; auto|right]. split; auto. intros i Hi Hn.
        rewrite G2; [|rewrite A1; auto|intros d Hd; apply Hn; right; auto]. apply G1; auto. intros d [<-|[]]. apply Hn. left; auto.
Qed.
Lemma lib_ok : ibex_ok Mstd stdD lib.
Proof.
  split.
  - intros c iv _ K. split; [apply lib_backward_ok; auto|]. cbn [lib ib_backward]. unfold lib_backward. destruct (bound_of c) as [[i d]|]; auto.
    destruct (Nat.ltb i (length iv)); auto. destruct (i_inter _ _); discriminate.
  - intros cs iv _ K. apply lib_poly_ok; auto.
Qed.

(** x <= 3, n >= 2.5, x >= 3 or x <= 1, ... over x in [0,4], n in [-3,8] *)
Definition d25 : dbl := mkd 5 (-1).
Definition f_le3 : formula := FRel RLeq ex_x (EConst (dZ 3)).
Definition f_ge25 : formula := FNot (FRel RLt (EVar vi) (EConst d25)).
Definition f_or : formula := FOr [FRel RLeq ex_x (EConst (dZ 1)); FAnd [FRel RGeq ex_x (EConst (dZ 2)); FRel RLeq ex_x (EConst (dZ 3))]].
Definition f_tree : formula := FAnd [f_or; f_ge25].
Definition lib_orc : oracles := ibex_oracles lib plain_sub plain_neg 10 (fun _ _ => None).
Definition tree_c (use_p : bool) : option contractor := generate plain_sub plain_neg [vx; vi] use_p const_fold 10 f_tree.
Definition ex_fix : option contractor := bind (tree_c false) (fun c => Some (mk_fix [c; mk_integer exb])).
Definition comps_are (s : option cstat) (i j : ival) : bool :=
  match s with Some s => i_eqb (b_get (cs_box s) 0) i && i_eqb (b_get (cs_box s) 1) j | None => false end.
(** The tree contractor narrows to x in [0,3], n in [2.5,8]; with the integer contractor n in [3,8]. *)
Example tree_prunes :
  comps_are (bind (tree_c false) (fun c => prune lib_orc default_term 20 c (cs_new exb None))) (IV dzero (dZ 3)) (IV d25 (dZ 8)) = true /\
  comps_are (bind (tree_c true) (fun c => prune lib_orc default_term 20 c (cs_new exb None))) (IV dzero (dZ 3)) (IV d25 (dZ 8)) = true /\
  comps_are (bind ex_fix (fun c => prune lib_orc default_term 20 c (cs_new exb None))) (IV dzero (dZ 3)) (IV (dZ 3) (dZ 8)) = true.
Proof. vm_compute. auto. Qed.

Lemma tree_hyps : unfolded const_fold f_tree /\ rels_ok (fun _ a b => esub_faithful Mstd stdD plain_sub a b) f_tree /\
  (forall v, In v (fvF f_tree) -> In v [vx; vi]).
Proof.
  split; [|split].
  - unfold f_tree, f_or, f_ge25. repeat (first [apply ro_or|apply ro_and|apply ro_not|apply ro_rel|intros g Hg; simpl in Hg; repeat destruct Hg as [<-|Hg]; try contradiction]); reflexivity.
  - unfold f_tree, f_or, f_ge25. repeat (first [apply ro_or|apply ro_and|apply ro_not|apply ro_rel|intros g Hg; simpl in Hg; repeat destruct Hg as [<-|Hg]; try contradiction]); apply plain_sub_ok; first [exact I|vm_compute; reflexivity].
  - intros v Hv. simpl in Hv. simpl. intuition.
Qed.
Definition conv_ok (f : formula) : bool := match ibex_convert plain_sub plain_neg [vx; vi] 10 f with COk (Some _) => true | _ => false end.
Example conv_lits : forallb conv_ok [f_le3; f_ge25; lit_valid; lit_unknown] = true.
Proof. vm_compute. reflexivity. Qed.
Lemma fix_ok_of t : generate plain_sub plain_neg (bvars exb) false const_fold 10 f_tree = Some t ->
  c_ok Mstd stdD lib_orc (bvars exb) (mk_fix [t; mk_integer exb]).
Proof.
  destruct tree_hyps as (A & B & C). intros E.
  destruct (generate_good Mstd stdD lib plain_sub plain_neg 10 (fun _ _ => None) lib_ok (plain_neg_ok _ _) (std_sqrt_ok _ _) false const_fold (bvars exb) f_tree t A B C E) as [G _].
  assert (F : Forall (c_ok Mstd stdD lib_orc (bvars exb)) [t; mk_integer exb]).
  { constructor; [exact G|]. constructor; [apply mk_integer_ok|constructor]. }
  apply (c_flatten_Forall (c_ok Mstd stdD lib_orc (bvars exb))) in F; [|intros l; cbn [c_ok]; apply cok_list].
  unfold mk_fix. destruct (c_flatten _); [exact I|]. cbn [c_ok]. apply cok_list. exact F.
Qed.
