(** * Scopes of the SAT wrapper and of the context *)
From Coq Require Import ZArith List Bool Arith Lia FunctionalExtensionality.
From Verif Require Import Dbl Syntax FormulaCons PredAbs Tseitin Scoped SpecScoped ScopedProofs Interval MathConv IEval Contr Icp Filter Theory IteElim Sat Context.
Import ListNotations.

(** What one scope of the SAT solver holds. *)
Record slev := { l_cls : list pclause; l_sat : var -> option nat; l_sym : nat -> option var; l_tse : var -> option unit }.
Definition slv (s : satst) : slev :=
  {| l_cls := sv_vec (ss_clauses s); l_sat := sat_of s; l_sym := sym_of s; l_tse := fun v => al_find var_eqb v (sm_map (ss_tse s)) |}.
Record ssim (s : satst) (saved : list slev) : Prop := {
  si_cls : vsim (ss_clauses s) (l_cls (slv s), map l_cls saved);
  si_sat : msim var_eqb (ss_to_sat s) (l_sat (slv s), map l_sat saved);
  si_sym : msim Nat.eqb (ss_to_sym s) (l_sym (slv s), map l_sym saved);
  si_tse : msim var_eqb (ss_tse s) (l_tse (slv s), map l_tse saved) }.

Lemma var_eqb_spec' a b : reflect (a = b) (var_eqb a b).
Proof. destruct (var_eqb a b) eqn:E; constructor; [apply var_eqb_eq; exact E|]. intros ->. assert (var_eqb b b = true) by now apply var_eqb_eq. congruence. Qed.
Lemma nat_eqb_spec' a b : reflect (a = b) (Nat.eqb a b). Proof. apply Nat.eqb_spec. Qed.

Section S.
  Context {T : Type}.
  Lemma vsim_cur (s : svec T) x r : vsim s (x, r) -> vsim s (sv_vec s, r). Proof. intros [_ H]. split; [reflexivity|exact H]. Qed.
  Lemma vsim_back (s : svec T) y x r : vsim s (x, r) -> vsim (sv_push_back y s) (sv_vec (sv_push_back y s), r).
  Proof. intros H. apply (vsim_cur _ (x ++ [y])). apply (vstep_sim s (x, r) (VPushBack y) H). Qed.
  Lemma vsim_push (s : svec T) r : vsim s (sv_vec s, r) -> vsim (sv_push s) (sv_vec s, sv_vec s :: r).
  Proof. intros H. exact (proj1 (vstep_sim s (sv_vec s, r) VPush H)). Qed.
  Lemma vsim_pop (s : svec T) x y r : vsim s (x, y :: r) -> exists n s', sv_pop s = Ok (n, s') /\ vsim s' (y, r).
  Proof.
    intros H. pose proof (vstep_sim s (x, y :: r) VPop H) as V. cbn [sv_step vspec_step snap_pop snd] in V.
    destruct (sv_pop s) as [[n s']| |]; [|destruct V; discriminate|destruct V; discriminate]. exists n, s'. split; [reflexivity|apply V].
  Qed.
End S.
Section Mp.
  Context {K V : Type}.
  Variable eqb : K -> K -> bool.
  Hypothesis Es : forall a b, reflect (a = b) (eqb a b).
  Definition rd (s : smapt K V) : K -> option V := fun k => al_find eqb k (sm_map s).
  Lemma msim_cur (s : smapt K V) x r : msim eqb s (x, r) -> msim eqb s (rd s, r).
  Proof. intros (A & B & C). split; [exact A|split; [reflexivity|exact C]]. Qed.
  Lemma msim_ins (s : smapt K V) k v r : msim eqb s (rd s, r) -> msim eqb (sm_insert eqb k v s) (rd (sm_insert eqb k v s), r).
  Proof. intros H. exact (msim_cur _ _ _ (sm_insert_ok eqb Es k v s _ H)). Qed.
  Lemma msim_sins (s : smapt K V) k v r : msim eqb s (rd s, r) -> msim eqb (ss_insert eqb k v s) (rd (ss_insert eqb k v s), r).
  Proof. intros H. exact (msim_cur _ _ _ (ss_insert_ok eqb Es k v s _ H)). Qed.
  Lemma msim_push (s : smapt K V) r : msim eqb s (rd s, r) -> msim eqb (sm_push s) (rd s, rd s :: r).
  Proof. intros H. destruct (mstep_sim eqb Es true (sm_insert eqb) s _ MPush (sm_insert_ok eqb Es) H) as (s' & E & X). cbn [sm_step] in E. injection E as <-. exact X. Qed.
  Lemma msim_pop (s : smapt K V) y r : msim eqb s (rd s, y :: r) -> exists s', sm_pop eqb s = Ok s' /\ msim eqb s' (y, r) /\ rd s' = y.
  Proof.
    intros H. destruct (mstep_sim eqb Es true (sm_insert eqb) s _ MPop (sm_insert_ok eqb Es) H) as (s' & E & X). cbn [sm_step mspec_step snap_pop snd fst] in *.
    destruct (sm_pop eqb s) as [s1| |] eqn:P; [|discriminate|discriminate]. injection E as <-. exists s1. split; [reflexivity|]. split; [exact X|]. extensionality k. apply X.
  Qed.
  Lemma rd_insert k v (s : smapt K V) k' : rd (sm_insert eqb k v s) k' = if eqb k' k then Some v else rd s k'.
  Proof.
    unfold rd, sm_insert. destruct (al_find eqb k (sm_map s)) as [o|] eqn:F; cbn [sm_map].
    - apply find_set; [exact Es|congruence].
    - reflexivity.
  Qed.
  Lemma rd_sinsert k v (s : smapt K V) k' : rd (ss_insert eqb k v s) k' = if eqb k' k then (match rd s k with Some o => Some o | None => Some v end) else rd s k'.
  Proof.
    unfold rd, ss_insert. destruct (al_find eqb k (sm_map s)) as [o|] eqn:F; cbn [sm_map al_find]; [|destruct (eqb k' k); reflexivity].
    destruct (Es k' k) as [->|]; auto.
  Qed.
End Mp.

(** ** The SAT solver *)
Lemma make_sat_var_sim s v saved : ssim s saved -> ssim (make_sat_var s v) saved.
Proof.
  intros [A B C D]. unfold make_sat_var. destruct (sat_of s v); [split; assumption|].
  split; cbn [ss_clauses ss_to_sat ss_to_sym ss_tse slv l_cls l_sat l_sym l_tse]; auto.
  - exact (msim_ins var_eqb var_eqb_spec' _ v _ _ B).
  - exact (msim_ins Nat.eqb nat_eqb_spec' _ _ v _ C).
Qed.
Lemma make_sat_vars_sim vs : forall s saved, ssim s saved -> ssim (fold_left make_sat_var vs s) saved.
Proof. induction vs; intros s saved H; cbn [fold_left]; auto. apply IHvs, make_sat_var_sim, H. Qed.
Lemma with_clause_sim L s saved : ssim s saved -> ssim (with_clause L s) saved.
Proof. intros [A B C D]. split; cbn [with_clause ss_clauses ss_to_sat ss_to_sym ss_tse slv l_cls l_sat l_sym l_tse]; auto. eapply vsim_back; exact A. Qed.
Lemma with_pa_sim m s saved : ssim s saved -> ssim (with_pa m s) saved.
Proof. intros [A B C D]. split; assumption. Qed.
Lemma tse_sim (l : list (var * formula)) : forall t r, msim var_eqb t (rd var_eqb t, r) ->
  msim var_eqb (fold_left (fun m p => ss_insert var_eqb (fst p) tt m) l t) (rd var_eqb (fold_left (fun m p => ss_insert var_eqb (fst p) tt m) l t), r).
Proof. induction l as [|p l IH]; intros t r H; cbn [fold_left]; auto. apply IH. exact (msim_sins var_eqb var_eqb_spec' _ _ tt _ H). Qed.
Lemma with_tse_sim (l : list (var * formula)) s saved : ssim s saved -> ssim (with_tse (fold_left (fun m p => ss_insert var_eqb (fst p) tt m) l (ss_tse s)) s) saved.
Proof. intros [A B C D]. split; cbn [with_tse ss_clauses ss_to_sat ss_to_sym ss_tse slv l_cls l_sat l_sym l_tse]; auto. exact (tse_sim l _ _ D). Qed.
Lemma add_clause_sim f s s' saved : ssim s saved -> sat_add_clause f s = Some s' -> ssim s' saved.
Proof.
  intros H E. unfold sat_add_clause in E. destruct (lits_of _ _) as [L|]; [|discriminate]. injection E as <-.
  apply with_clause_sim, make_sat_vars_sim, H.
Qed.
Lemma add_clauses_sim fs : forall s s' saved, ssim s saved -> sat_add_clauses fs s = Some s' -> ssim s' saved.
Proof.
  induction fs as [|f fs IH]; intros s s' saved H E; cbn [sat_add_clauses] in E; [injection E as <-; exact H|].
  destruct (sat_add_clause f s) as [s1|] eqn:E1; [|discriminate]. eapply IH; [eapply add_clause_sim; eauto|exact E].
Qed.
Lemma add_formula_sim fold f n s s' n' saved : ssim s saved -> sat_add_formula fold f n s = Some (s', n') -> ssim s' saved.
Proof.
  intros H E. unfold sat_add_formula in E. destruct (ts_convert fold f n) as [[cs|] t]; cbn [bind] in E; [|discriminate].
  destruct (smap _ _ _) as [gs p]. destruct (sat_add_clauses gs _) as [s2|] eqn:E2; cbn [bind] in E; [|discriminate]. injection E as <- <-.
  eapply add_clauses_sim; [|exact E2]. apply with_pa_sim, with_tse_sim, H.
Qed.
Lemma learn_sim fold E0 n s s' n' saved : ssim s saved -> sat_learn fold E0 n s = Some (s', n') -> ssim s' saved.
Proof.
  intros H E. unfold sat_learn in E. destruct (smap _ _ _) as [gs p]. destruct (lits_of _ _) as [L|]; cbn [bind] in E; [|discriminate]. injection E as <- <-.
  apply with_clause_sim, with_pa_sim, H.
Qed.
Lemma sat_push_sim s saved : ssim s saved -> ssim (sat_push s) (slv s :: saved) /\ slv (sat_push s) = slv s.
Proof.
  intros [A B C D]. split; [|reflexivity]. split; cbn [sat_push ss_clauses ss_to_sat ss_to_sym ss_tse slv l_cls l_sat l_sym l_tse map].
  - exact (vsim_push (ss_clauses s) _ A).
  - exact (msim_push var_eqb var_eqb_spec' (ss_to_sat s) _ B).
  - exact (msim_push Nat.eqb nat_eqb_spec' (ss_to_sym s) _ C).
  - exact (msim_push var_eqb var_eqb_spec' (ss_tse s) _ D).
Qed.
Lemma sat_pop_sim s x saved : ssim s (x :: saved) ->
  exists s', sat_pop s = Some s' /\ ssim s' saved /\ slv s' = x /\ ss_pa s' = ss_pa s /\ ss_max s' = ss_max s.
Proof.
  intros [A B C D]. cbn [map] in *. unfold sat_pop.
  destruct (msim_pop var_eqb var_eqb_spec' _ _ _ D) as (t & Et & St & Rt).
  destruct (msim_pop Nat.eqb nat_eqb_spec' _ _ _ C) as (y & Ey & Sy & Ry).
  destruct (msim_pop var_eqb var_eqb_spec' _ _ _ B) as (z & Ez & Sz & Rz).
  destruct (vsim_pop _ _ _ _ A) as (n & c & Ec & Sc).
  rewrite Et, Ey, Ez, Ec. eexists. split; [reflexivity|]. cbn [ss_clauses ss_to_sat ss_to_sym ss_tse ss_pa ss_max].
  assert (X : slv {| ss_clauses := c; ss_to_sat := z; ss_to_sym := y; ss_tse := t; ss_pa := ss_pa s; ss_max := ss_max s; ss_popped := true |} = x).
  { destruct x as [x1 x2 x3 x4]. cbn [l_cls l_sat l_sym l_tse] in *. unfold slv, sat_of, sym_of. cbn [ss_clauses ss_to_sat ss_to_sym ss_tse].
    f_equal; [apply Sc|exact Rz|exact Ry|exact Rt]. }
  split; [|split; [exact X|split; reflexivity]]. split; rewrite X; assumption.
Qed.
Lemma sat_init_sim : ssim sat_init [].
Proof. split; [split; [reflexivity|constructor]|..]; (split; [constructor|split; [reflexivity|constructor]]). Qed.

(** ** The context *)
Record level := { v_box : box; v_stack : list formula; v_sat : slev }.
(** Sizes of boxes_ when the scopes were opened: one box per scope. *)
Fixpoint bscopes (saved : list box) : list nat := match saved with [] => [] | _ :: r => length saved :: bscopes r end.
Record csim (c : ctx) (b : box) (saved : list level) : Prop := {
  cs_boxes : sv_vec (cx_boxes c) = rev (b :: map v_box saved) /\ sv_scopes (cx_boxes c) = bscopes (map v_box saved);
  cs_stack : vsim (cx_stack c) (sv_vec (cx_stack c), map v_stack saved);
  cs_sat : ssim (cx_sat c) (map v_sat saved) }.
Definition lev (c : ctx) (b : box) : level := {| v_box := b; v_stack := sv_vec (cx_stack c); v_sat := slv (cx_sat c) |}.

Lemma csim_box c b saved : csim c b saved -> cx_box c = Some b.
Proof. intros H. unfold cx_box, last_opt. rewrite (proj1 (cs_boxes _ _ _ H)), rev_involutive. reflexivity. Qed.
Lemma csim_set b' c b saved : csim c b saved -> exists c', cx_set_box b' c = Some c' /\ csim c' b' saved /\
  cx_stack c' = cx_stack c /\ cx_sat c' = cx_sat c /\ cx_next c' = cx_next c /\ cx_mvars c' = cx_mvars c /\ cx_model c' = cx_model c /\ cx_calls c' = cx_calls c.
Proof.
  intros [[A B] C D]. unfold cx_set_box, sv_set_last. cbn [rev] in A. rewrite A.
  destruct (rev (map v_box saved) ++ [b]) as [|x l] eqn:X; [destruct (rev (map v_box saved)); discriminate|]. rewrite <- X, removelast_last.
  eexists. split; [reflexivity|]. split; [|auto 10]. split; cbn [cx_boxes cx_stack cx_sat sv_vec sv_scopes]; auto.
Qed.
Lemma csim_frame c c' b saved : csim c b saved -> cx_boxes c' = cx_boxes c -> vsim (cx_stack c') (sv_vec (cx_stack c'), map v_stack saved) ->
  ssim (cx_sat c') (map v_sat saved) -> csim c' b saved.
Proof. intros [A B C] E1 E2 E3. split; auto. rewrite E1. exact A. Qed.

Lemma cx_push_sim c b saved : csim c b saved -> exists c', cx_push c = Some c' /\ csim c' b (lev c b :: saved) /\ lev c' b = lev c b /\
  cx_next c' = cx_next c /\ ss_pa (cx_sat c') = ss_pa (cx_sat c) /\ ss_max (cx_sat c') = S (ss_max (cx_sat c)).
Proof.
  intros H. unfold cx_push. rewrite (csim_box _ _ _ H). cbn [bind]. eexists. split; [reflexivity|].
  destruct H as [[A B] C D]. split; [|auto 10]. split; cbn [cx_boxes cx_stack cx_sat map v_box v_stack v_sat lev sv_push_back sv_push sv_vec sv_scopes].
  - rewrite A. split; [cbn [rev]; reflexivity|]. cbn [bscopes]. f_equal; [|exact B]. rewrite rev_length. reflexivity.
  - exact (vsim_push (cx_stack c) _ C).
  - apply sat_push_sim. exact D.
Qed.
Lemma bscopes_len x r : bscopes (x :: r) = S (length r) :: bscopes r. Proof. reflexivity. Qed.
Lemma cx_pop_sim c b l saved : csim c b (l :: saved) -> exists c', cx_pop c = Some c' /\ csim c' (v_box l) saved /\ lev c' (v_box l) = l /\
  cx_next c' = cx_next c /\ ss_pa (cx_sat c') = ss_pa (cx_sat c) /\ ss_max (cx_sat c') = ss_max (cx_sat c).
Proof.
  intros [[A B] C D]. unfold cx_pop. cbn [map] in *. destruct (vsim_pop _ _ _ _ C) as (n & st & Es & Ss). rewrite Es.
  unfold sv_pop. rewrite B, bscopes_len. rewrite pop_loop_spec; [|reflexivity|rewrite A, rev_length; cbn [length]; lia].
  destruct (sat_pop_sim _ _ _ D) as (s & Et & St & Xs & Xp & Xm). rewrite Et. cbn [bind]. eexists. split; [reflexivity|].
  assert (Y : sv_vec st = v_stack l) by apply Ss.
  split; [|split; [|auto]].
  - split; cbn [cx_boxes cx_stack cx_sat sv_vec sv_scopes].
    + split; [|reflexivity]. rewrite A. cbn [rev].
      assert (L : S (length (map v_box saved)) = length (rev (map v_box saved) ++ [v_box l])) by (rewrite app_length, rev_length; cbn [length]; lia).
      rewrite L, firstn_app, firstn_all, Nat.sub_diag. cbn [firstn]. rewrite app_nil_r. reflexivity.
    + rewrite Y. exact Ss.
    + exact St.
  - destruct l as [lb ls lt]. unfold lev. cbn [cx_stack cx_sat v_box v_stack v_sat] in *. now rewrite Y, Xs.
Qed.
Lemma cx_init_sim n : csim (cx_init n) box0 [].
Proof. split; [split; reflexivity|split; [reflexivity|constructor]|apply sat_init_sim]. Qed.

Section Steps.
  Variables (fold : expr -> expr -> option dbl) (K : eops) (pico : pico_t) (T : nat -> box -> list formula -> option tres) (mid : dbl -> dbl -> dbl) (precision : dbl).
  Lemma declare_sim v m c b saved c' : csim c b saved -> cx_declare v m c = Some c' -> csim c' (b_add_new b v) saved /\
    cx_stack c' = cx_stack c /\ cx_sat c' = cx_sat c /\ cx_next c' = cx_next c.
  Proof.
    intros H E. unfold cx_declare in E. rewrite (csim_box _ _ _ H) in E. cbn [bind] in E.
    destruct (csim_set (b_add_new b v) c b saved H) as (c1 & E1 & H1 & X1 & X2 & X3 & _). rewrite E1 in E. cbn [bind] in E. injection E as <-.
    destruct (m && _)%bool; [|auto]. split; [|auto]. eapply csim_frame; [exact H1|reflexivity|apply H1|apply H1].
  Qed.
  Lemma set_interval_sim v l u c b saved c' : csim c b saved -> cx_set_interval v l u c = Some c' -> csim c' (b_setv b v (mk_ival l u)) saved /\
    cx_stack c' = cx_stack c /\ cx_sat c' = cx_sat c /\ cx_next c' = cx_next c.
  Proof.
    intros H E. unfold cx_set_interval in E. rewrite (csim_box _ _ _ H) in E. cbn [bind] in E.
    destruct (csim_set (b_setv b v (mk_ival l u)) c b saved H) as (c1 & E1 & H1 & X1 & X2 & X3 & _). rewrite E1 in E. injection E as <-. auto.
  Qed.
  Lemma assert_sim f c b saved c' : csim c b saved -> cx_assert fold K f c = Some c' -> exists b', csim c' b' saved.
  Proof.
    intros H E. unfold cx_assert in E. destruct (is_true f); [injection E as <-; eauto|]. rewrite (csim_box _ _ _ H) in E. cbn [bind] in E.
    destruct (b_empty b); [injection E as <-; eauto|].
    destruct (is_false f). { destruct (csim_set (b_set_empty b) c b saved H) as (c1 & E1 & H1 & _). rewrite E1 in E. injection E as <-. eauto. }
    destruct (filter_assertion f b) as [[r b']|]; cbn [bind fst snd] in E; [|discriminate].
    destruct r; try (destruct (csim_set b' c b saved H) as (c1 & E1 & H1 & _); rewrite E1 in E; injection E as <-; eauto).
    destruct (ite_process fold K f (cx_next c)) as [g s].
    destruct (csim_set (fold_left b_add_new (it_vars s) b') c b saved H) as (c1 & E1 & H1 & _). rewrite E1 in E. cbn [bind] in E.
    destruct (sat_add_formula fold g (it_next s) (cx_sat c1)) as [[t nx]|] eqn:Ea; cbn [bind] in E; [|discriminate]. injection E as <-. cbn [fst snd].
    eexists. eapply csim_frame; [exact H1|reflexivity| |].
    - cbn [cx_with_sat cx_push_stack cx_stack]. eapply vsim_back. apply H1.
    - cbn [cx_with_sat cx_push_stack cx_sat]. eapply add_formula_sim; [apply H1|exact Ea].
  Qed.
  Lemma core_loop_sim n : forall b s nx t ob s' nx' t' saved, ssim s saved -> core_loop fold pico T n b s nx t = Some (ob, s', nx', t') -> ssim s' saved.
  Proof.
    induction n as [|n IH]; intros b s nx t ob s' nx' t' saved H E; cbn [core_loop] in E; [discriminate|].
    destruct (pico t _ _ _) as [a| |]; [|injection E as <- <- <- <-; exact H|discriminate].
    destruct (sat_model s a) as [bm tm]. destruct tm as [|p tm]; [injection E as <- <- <- <-; exact H|].
    destruct (theory_lits s (p :: tm)) as [fs|]; cbn [bind] in E; [|discriminate].
    destruct (T t _ fs) as [[m|E0]|]; cbn [bind] in E; [injection E as <- <- <- <-; exact H| |discriminate].
    destruct (sat_learn fold E0 nx s) as [[s1 n1]|] eqn:El; cbn [bind fst snd] in E; [|discriminate].
    eapply IH; [eapply learn_sim; eauto|exact E].
  Qed.
  Lemma check_sim n c b saved r c' : csim c b saved -> cx_check fold pico T mid precision n c = Some (r, c') -> csim c' b saved /\ cx_stack c' = cx_stack c.
  Proof.
    intros H E. unfold cx_check in E. destruct (check_core fold pico T n c) as [[ob c1]|] eqn:Ec; cbn [bind] in E; [|discriminate].
    assert (X : csim c1 b saved /\ cx_stack c1 = cx_stack c).
    { unfold check_core in Ec. rewrite (csim_box _ _ _ H) in Ec. cbn [bind] in Ec. destruct (b_empty b); [injection Ec as _ <-; auto|].
      destruct (existsb is_false _); [injection Ec as _ <-; auto|]. destruct (sv_vec (cx_stack c)) as [|f st]; [injection Ec as _ <-; auto|].
      destruct (match f :: st with [f0] => is_true f0 | _ => false end); [injection Ec as _ <-; auto|].
      destruct (core_loop _ _ _ _ _ _ _ _) as [[[[ob' s'] nx'] t']|] eqn:El; cbn [bind] in Ec; [|discriminate]. injection Ec as _ <-.
      split; [|reflexivity]. eapply csim_frame; [exact H|reflexivity|apply H|]. cbn [cx_sat]. eapply core_loop_sim; [apply H|exact El]. }
    destruct X as [X Y]. destruct ob as [m|].
    - destruct (tighten mid precision m) as [m1|]; cbn [bind] in E; [|discriminate]. injection E as <- <-. split; [|exact Y].
      eapply csim_frame; [exact X|reflexivity|apply X|apply X].
    - injection E as <- <-. split; [|exact Y]. eapply csim_frame; [exact X|reflexivity|apply X|apply X].
  Qed.
End Steps.

(** Well-bracketed histories: [d] scopes are open. *)
Fixpoint balanced (d : nat) (ops : list cop) : Prop :=
  match ops with
  | [] => d = 0
  | OPush :: r => balanced (S d) r
  | OPop :: r => match d with 0 => False | S d' => balanced d' r end
  | _ :: r => balanced d r
  end.
Section Runs.
  Variables (fold : expr -> expr -> option dbl) (K : eops) (pico : pico_t) (T : nat -> box -> list formula -> option tres) (mid : dbl -> dbl -> dbl) (precision : dbl).
  Notation step := (cx_step fold K pico T mid precision). Notation run := (cx_run fold K pico T mid precision).
  Lemma next_sim n c b saved : csim c b saved -> csim (cx_with_next n c) b saved.
  Proof. intros H. eapply csim_frame; [exact H|reflexivity|apply H|apply H]. Qed.
  (** One call keeps the saved scopes, except that OPush adds one and OPop takes one away. *)
  Lemma step_sim o c b saved c' a : csim c b saved -> step o c = Some (c', a) ->
    match o with
    | OPush => csim c' b (lev c b :: saved)
    | OPop => match saved with [] => False | l :: r => csim c' (v_box l) r /\ lev c' (v_box l) = l end
    | _ => exists b', csim c' b' saved
    end.
  Proof.
    intros H E. destruct o; cbn [cx_step] in E.
    - destruct (Nat.eqb _ _); [|discriminate]. injection E as <- <-. exists b. apply next_sim, H.
    - destruct (cx_declare v model c) as [c1|] eqn:E1; cbn [bind] in E; [|discriminate]. injection E as <- <-. eexists. apply (declare_sim _ _ _ _ _ _ H E1).
    - destruct (cx_declare v model c) as [c1|] eqn:E1; cbn [bind] in E; [|discriminate]. destruct (cx_set_interval v l u c1) as [c2|] eqn:E2; cbn [bind] in E; [|discriminate].
      injection E as <- <-. eexists. apply (set_interval_sim _ _ _ _ _ _ _ (proj1 (declare_sim _ _ _ _ _ _ H E1)) E2).
    - destruct (cx_set_interval v l u c) as [c2|] eqn:E2; cbn [bind] in E; [|discriminate]. injection E as <- <-. eexists. apply (set_interval_sim _ _ _ _ _ _ _ H E2).
    - destruct (cx_assert fold K f c) as [c1|] eqn:E1; cbn [bind] in E; [|discriminate]. injection E as <- <-. eapply assert_sim; eauto.
    - destruct (cx_push_sim c b saved H) as (c1 & E1 & H1 & _). rewrite E1 in E. cbn [bind] in E. injection E as <- <-. exact H1.
    - destruct saved as [|l saved].
      + unfold cx_pop in E. destruct H as [[_ A] B _]. cbn [map bscopes] in A.
        assert (P : sv_pop (cx_boxes c) = Throw) by (unfold sv_pop; rewrite A; reflexivity). rewrite P in E.
        destruct (sv_pop (cx_stack c)) as [[? ?]| |]; discriminate.
      + destruct (cx_pop_sim c b l saved H) as (c1 & E1 & H1 & H2 & _). rewrite E1 in E. cbn [bind] in E. injection E as <- <-. auto.
    - destruct (cx_check fold pico T mid precision fuel c) as [[r c1]|] eqn:E1; cbn [bind fst snd] in E; [|discriminate]. injection E as <- <-. exists b. eapply check_sim; eauto.
  Qed.
  Lemma run_sim ops : forall c b saved c' a, csim c b saved -> run ops c = Some (c', a) -> exists b' saved', csim c' b' saved'.
  Proof.
    induction ops as [|o ops IH]; intros c b saved c' a H E; cbn [cx_run] in E; [injection E as <- <-; eauto|].
    destruct (step o c) as [[c1 a1]|] eqn:E1; cbn [bind fst snd] in E; [|discriminate].
    destruct (run ops c1) as [[c2 a2]|] eqn:E2; cbn [bind fst snd] in E; [|discriminate]. injection E as <- <-.
    pose proof (step_sim o c b saved c1 a1 H E1) as S. destruct o; try (destruct S as [b1 S]; exact (IH _ _ _ _ _ S E2)).
    - exact (IH _ _ _ _ _ S E2).
    - destruct saved as [|l saved]; [contradiction|]. destruct S as [S _]. exact (IH _ _ _ _ _ S E2).
  Qed.
  Lemma balanced_sim ops : forall d c b pre base c' a, csim c b (pre ++ base) -> length pre = d -> balanced d ops -> run ops c = Some (c', a) ->
    exists b', csim c' b' base.
  Proof.
    induction ops as [|o ops IH]; intros d c b pre base c' a H L B E; cbn [cx_run] in E.
    - injection E as <- <-. cbn [balanced] in B. subst d. destruct pre; [|discriminate]. eauto.
    - destruct (step o c) as [[c1 a1]|] eqn:E1; cbn [bind fst snd] in E; [|discriminate].
      destruct (run ops c1) as [[c2 a2]|] eqn:E2; cbn [bind fst snd] in E; [|discriminate]. injection E as <- <-.
      pose proof (step_sim o c b _ c1 a1 H E1) as S. destruct o; cbn [balanced] in B; try (destruct S as [b1 S]; exact (IH d c1 b1 pre base _ _ S L B E2)).
      + apply (IH (Datatypes.S d) c1 b (lev c b :: pre) base c2 a2 S); auto. cbn [length]. auto.
      + destruct d as [|d]; [contradiction|]. destruct pre as [|l pre]; [discriminate|]. cbn [app] in S. destruct S as [S _].
        apply (IH d c1 (v_box l) pre base c2 a2 S); auto.
  Qed.
  Theorem push_pop n ops c a body c1 a1 : run ops (cx_init n) = Some (c, a) -> balanced 0 body -> run (OPush :: body) c = Some (c1, a1) ->
    exists c2, cx_pop c1 = Some c2 /\ cx_box c2 = cx_box c /\ sv_vec (cx_stack c2) = sv_vec (cx_stack c) /\
      sv_vec (ss_clauses (cx_sat c2)) = sv_vec (ss_clauses (cx_sat c)) /\
      (forall v, sat_of (cx_sat c2) v = sat_of (cx_sat c) v) /\ (forall k, sym_of (cx_sat c2) k = sym_of (cx_sat c) k) /\
      (forall v, is_tse (cx_sat c2) v = is_tse (cx_sat c) v).
  Proof.
    intros E0 B E1. destruct (run_sim ops _ _ _ _ _ (cx_init_sim n) E0) as (b & saved & H).
    cbn [cx_run] in E1. destruct (step OPush c) as [[c0 a0]|] eqn:Ep; cbn [bind fst snd] in E1; [|discriminate].
    destruct (run body c0) as [[c1' a1']|] eqn:Eb; cbn [bind fst snd] in E1; [|discriminate]. injection E1 as -> <-.
    pose proof (step_sim OPush c b saved c0 a0 H Ep) as S. cbn beta iota in S.
    destruct (balanced_sim body 0 c0 b [] (lev c b :: saved) c1 a1' S eq_refl B Eb) as [b' S1].
    destruct (cx_pop_sim c1 b' (lev c b) saved S1) as (c2 & E2 & S2 & L2 & _). exists c2. split; [exact E2|].
    rewrite (csim_box _ _ _ S2), (csim_box _ _ _ H). split; [reflexivity|].
    split; [exact (f_equal v_stack L2)|]. split; [exact (f_equal (fun l => l_cls (v_sat l)) L2)|].
    split; [exact (fun v => f_equal (fun l => l_sat (v_sat l) v) L2)|]. split; [exact (fun v => f_equal (fun l => l_sym (v_sat l) v) L2)|].
    intros v. unfold is_tse. pose proof (f_equal (fun l => l_tse (v_sat l) v) L2) as X. cbn [lev v_sat slv l_tse] in X. rewrite X. reflexivity.
  Qed.
End Runs.
