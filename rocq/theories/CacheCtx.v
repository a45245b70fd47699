(** * A context whose theory solver caches, over histories in two phases (C48) *)
From Coq Require Import ZArith List Bool Arith Lia.
From Flocq Require Import IEEE754.BinarySingleNaN.
From Verif Require Import Dbl Syntax Sem SemProofs FormulaCons FormulaConsProofs PredAbs Nnf Interval MathConv IEval Contr ContrProofs IbexConv Icp IcpPar Filter Theory Scoped IteElim IteElimProofs Sat Context Cache SpecCache CacheProofs CacheLink.
Import ListNotations.

(** Without if-then-else terms the eliminator introduces no variables. *)
Lemma iteE_plain fold K e g s : hasIteE e = false -> iteE fold K e g s = (e, s).
Proof. intros H. destruct e; cbn [iteE]; rewrite H; reflexivity. Qed.
Lemma iteF_vars fold K f : hasIteF f = false -> forall g s, it_vars (snd (iteF fold K f g s)) = it_vars s.
Proof.
  induction f as [| |v|o a b|fs IH|fs IH|h IH|vs h IH] using formula_ind'; intros H g s; try reflexivity.
  - rewrite iteF_rel. cbn [hasIteF] in H. apply orb_false_iff in H. destruct H as [Ha Hb]. rewrite (iteE_plain fold K a g s Ha), (iteE_plain fold K b g s Hb). reflexivity.
  - rewrite (iteF_conn fold K true fs). assert (X : forall s, it_vars (snd (smap (fun h s => iteF fold K h g s) fs s)) = it_vars s).
    { cbn [hasIteF] in H. clear - IH H. induction fs as [|f fs IHl]; intros s; cbn [smap]; [reflexivity|]. cbn [existsb] in H. apply orb_false_iff in H. destruct H as [H1 H2]. inversion IH as [|? ? If Ifs]; subst.
      generalize (If H1 g s). destruct (iteF fold K f g s) as [f' s1]. cbn [snd]. intros <-. generalize (IHl Ifs H2 s1). destruct (smap _ fs s1). auto. }
    generalize (X s). destruct (smap _ fs s). auto.
  - rewrite (iteF_conn fold K false fs). assert (X : forall s, it_vars (snd (smap (fun h s => iteF fold K h g s) fs s)) = it_vars s).
    { cbn [hasIteF] in H. clear - IH H. induction fs as [|f fs IHl]; intros s; cbn [smap]; [reflexivity|]. cbn [existsb] in H. apply orb_false_iff in H. destruct H as [H1 H2]. inversion IH as [|? ? If Ifs]; subst.
      generalize (If H1 g s). destruct (iteF fold K f g s) as [f' s1]. cbn [snd]. intros <-. generalize (IHl Ifs H2 s1). destruct (smap _ fs s1). auto. }
    generalize (X s). destruct (smap _ fs s). auto.
  - rewrite iteF_not. generalize (IH H g s). destruct (iteF fold K h g s). auto.
  - rewrite iteF_all. cbv zeta. match goal with |- it_vars (snd (let (_, _) := ?c in _)) = _ => destruct c end. reflexivity.
Qed.
Lemma process_vars fold K f n : hasIteF f = false -> it_vars (snd (ite_process fold K f n)) = [].
Proof. intros H. unfold ite_process. generalize (iteF_vars fold K f H FTrue (it_init n)). destruct (iteF fold K f FTrue (it_init n)) as [f' s]. auto. Qed.

Section Run.
  Variables (esub : expr -> expr -> expr) (eneg : expr -> expr) (n : nat) (L : ibex).
  Variable fa : dbl -> list var -> formula -> box -> option (list ival).
  Variable fe : dbl -> formula -> box -> option (etype * ival).
  Variable rel : formula -> box -> option (etype * ival).
  Variables (term : list ival -> list ival -> bool) (m : nat).
  Variable srch : nat -> (cstat -> option cstat) -> (formula -> box -> option (etype * ival)) -> dbl -> list formula -> cstat -> option (bool * cstat).
  Hypothesis Hloc : local_search srch.
  Variables (fold : expr -> expr -> option dbl) (K : eops) (pico : pico_t) (mid : dbl -> dbl -> dbl).
  Notation FT := (fresh_T esub eneg n L fa fe rel term m srch).
  Notation kloop := (k_loop esub eneg n L fa fe rel term m srch fold pico).
  Notation kcore := (k_core esub eneg n L fa fe rel term m srch fold pico).
  Notation kcheck := (k_check esub eneg n L fa fe rel term m srch fold pico mid).
  Notation kstep := (k_step esub eneg n L fa fe rel term m srch fold K pico mid).
  Notation krun := (k_run esub eneg n L fa fe rel term m srch fold K pico mid).
  Notation prun := (p_run fold K pico FT mid).
  Notation check := (tc_check esub eneg n L fa fe rel term m srch).

  Section Same.
    Variables (p : dbl) (V : list var).
    (** Everything in the caches was built for [p] and [V]. *)
    Definition cgood (c : tcache) : Prop := exists past, (forall q, In q past -> q_prec q = p /\ bvars (q_box q) = V) /\ inv esub eneg n past c.
    Lemma check_good t b fs c : bvars b = V -> cgood c ->
      match check t (mkQuery p b fs) c with Some (c', r) => FT p t b fs = Some r /\ cgood c' | None => FT p t b fs = None end.
    Proof.
      intros Hb (past & Hp & I). set (q := mkQuery p b fs).
      assert (Hp' : forall x, In x (q :: past) -> q_prec x = p /\ bvars (q_box x) = V) by (intros x [<-|Hx]; [split; [reflexivity|exact Hb]|exact (Hp x Hx)]).
      assert (U : unchanged (q :: past)) by (intros x y f Hx Hy _ _; destruct (Hp' x Hx) as [-> ->], (Hp' y Hy) as [-> ->]; auto).
      assert (I' : inv esub eneg n (q :: past) c).
      { destruct I as [I1 I2]. split; [intros f e He; destruct (I1 f e He) as (x & Hx & R)|intros f e He; destruct (I2 f e He) as (x & Hx & R)]; exists x; (split; [right; exact Hx|exact R]). }
      generalize (check_fresh esub eneg n L fa fe rel term m srch (q :: past) t q c U (or_introl eq_refl) I').
      rewrite (fresh_link esub eneg n L fa fe rel term m srch Hloc t q). change (q_prec q) with p. change (q_box q) with b. change (q_lits q) with fs. destruct (check t q c) as [[c' r]|]; [|auto].
      intros [E I2]. split; [exact E|]. exists (q :: past). auto.
    Qed.
    Lemma bools_vars bm : forall b, bvars (set_bools bm b) = bvars b.
    Proof. induction bm as [|[v val] bm IH]; intros b; cbn [set_bools fold_left]; [reflexivity|]. unfold set_bools in IH. rewrite IH. reflexivity. Qed.
    Lemma loop_good fuel : forall b s nx t c, bvars b = V -> cgood c ->
      match kloop p fuel b s nx t c with
      | Some (ob, s', nx', t', c') => core_loop fold pico (FT p) fuel b s nx t = Some (ob, s', nx', t') /\ cgood c'
      | None => core_loop fold pico (FT p) fuel b s nx t = None
      end.
    Proof.
      induction fuel as [|fuel IH]; intros b s nx t c Hb Hc; cbn [k_loop core_loop]; [reflexivity|].
      destruct (pico t (ss_popped s) (sv_vec (ss_clauses s)) (ss_max s)) as [a| |]; [|auto|reflexivity].
      destruct (sat_model s a) as [bm tm]. assert (Vb : bvars (set_bools bm b) = V) by (rewrite bools_vars; exact Hb). destruct tm as [|x tm]; [auto|].
      destruct (theory_lits s (x :: tm)) as [fs|]; cbn [bind]; [|reflexivity]. generalize (check_good t (set_bools bm b) fs c Vb Hc).
      destruct (check t (mkQuery p (set_bools bm b) fs) c) as [[c' r]|]; cbn [bind fst snd]; [|intros ->; reflexivity].
      intros [-> Hc']. cbn [bind]. destruct r as [mb|E]; [auto|]. destruct (sat_learn fold E nx s) as [q|]; cbn [bind]; [|reflexivity]. apply IH; auto.
    Qed.
    Lemma last_in (l : list box) b : last_opt l = Some b -> In b l.
    Proof. unfold last_opt. destruct (rev l) as [|y r] eqn:E; [discriminate|]. intros H. apply in_rev. rewrite E. left. congruence. Qed.
    Lemma core_good fuel x c : Forall (fun b => bvars b = V) (sv_vec (cx_boxes x)) -> cgood c ->
      match kcore p fuel x c with
      | Some (ob, x', c') => check_core fold pico (FT p) fuel x = Some (ob, x') /\ cgood c' /\ cx_boxes x' = cx_boxes x
      | None => check_core fold pico (FT p) fuel x = None
      end.
    Proof.
      intros Hx Hc. unfold k_core, check_core. destruct (cx_box x) as [b|] eqn:Eb; cbn [bind]; [|reflexivity].
      assert (Vb : bvars b = V).
      { unfold cx_box in Eb. rewrite Forall_forall in Hx. apply Hx. exact (last_in _ _ Eb). }
      destruct (b_empty b); [auto|]. cbv zeta. destruct (existsb is_false (sv_vec (cx_stack x))); [auto|]. destruct (sv_vec (cx_stack x)) as [|f st]; [auto|].
      destruct (match f :: st with [g] => is_true g | _ => false end); [auto|].
      generalize (loop_good fuel b (cx_sat x) (cx_next x) (cx_calls x) c Vb Hc). destruct (kloop p fuel b (cx_sat x) (cx_next x) (cx_calls x) c) as [[[[[ob s'] nx'] t'] c']|]; cbn [bind]; [|intros ->; reflexivity].
      intros [-> Hc']. cbn [bind]. auto.
    Qed.
    Lemma check_step_good fuel x c : Forall (fun b => bvars b = V) (sv_vec (cx_boxes x)) -> cgood c ->
      match kstep p (OCheck fuel) x c with
      | Some (x', c', a) => cx_step fold K pico (FT p) mid p (OCheck fuel) x = Some (x', a) /\ cgood c' /\ cx_boxes x' = cx_boxes x
      | None => cx_step fold K pico (FT p) mid p (OCheck fuel) x = None
      end.
    Proof.
      intros Hx Hc. cbn [k_step cx_step]. unfold k_check, cx_check. generalize (core_good fuel x c Hx Hc). destruct (kcore p fuel x c) as [[[ob x'] c']|]; cbn [bind]; [|intros ->; reflexivity].
      intros (-> & Hc' & Eb). cbn [bind]. destruct ob as [b|].
      - destruct (tighten mid p b) as [b1|]; cbn [bind fst snd]; [|reflexivity]. auto.
      - cbn [bind fst snd]. auto.
    Qed.
    (** Operations of the second phase keep the variables of every box. *)
    Lemma removelast_in {X} (l : list X) y : In y (removelast l) -> In y l.
    Proof. induction l as [|z l IH]; cbn [removelast]; [auto|]. destruct l; [intros []|intros [<-|Hy]; [left|right]; auto]. Qed.
    Lemma set_box_vars b x x' : bvars b = V -> Forall (fun b => bvars b = V) (sv_vec (cx_boxes x)) -> cx_set_box b x = Some x' -> Forall (fun b => bvars b = V) (sv_vec (cx_boxes x')).
    Proof.
      intros Hb Hx. unfold cx_set_box, sv_set_last. destruct (sv_vec (cx_boxes x)) as [|b0 bs] eqn:E; [discriminate|]. intros E'. injection E' as <-. cbn [cx_boxes sv_vec]. apply Forall_app. split; [|constructor; auto].
      rewrite Forall_forall in *. intros y Hy. apply Hx. apply removelast_in. exact Hy.
    Qed.
    Lemma poploop_in {X} cur : forall prev (l : list X) k y, In y (fst (sv_pop_loop cur prev l k)) -> In y l.
    Proof. induction cur as [|cur IH]; intros prev l k y; cbn [sv_pop_loop]; [auto|]. destruct (Nat.ltb prev (S cur)); [|auto]. intros H. apply removelast_in. exact (IH _ _ _ _ H). Qed.
    Lemma later_vars T o x x' a : later_op (KOp o) -> Forall (fun b => bvars b = V) (sv_vec (cx_boxes x)) -> (forall fuel, o <> OCheck fuel) -> cx_step fold K pico T mid p o x = Some (x', a) ->
      Forall (fun b => bvars b = V) (sv_vec (cx_boxes x')).
    Proof.
      intros Lo Hx Nc. assert (Cb : forall b, cx_box x = Some b -> bvars b = V) by (intros b Eb; rewrite Forall_forall in Hx; exact (Hx b (last_in _ _ Eb))).
      destruct o as [v|v mo|v l u mo|v l u|f| | |fuel]; cbn [cx_step later_op] in *; try contradiction.
      - destruct (Nat.eqb (vid v) (cx_next x)); [|discriminate]. intros E. injection E as <- _. exact Hx.
      - unfold cx_set_interval. destruct (cx_box x) as [b|] eqn:Eb; cbn [bind]; [|discriminate]. destruct (cx_set_box _ x) as [x1|] eqn:E1; cbn [bind]; [|discriminate]. intros E. injection E as <- _.
        refine (set_box_vars _ x x1 _ Hx E1). exact (Cb b eq_refl).
      - destruct (cx_assert fold K f x) as [x1|] eqn:E1; cbn [bind]; [|discriminate]. intros E. injection E as <- _. revert E1. unfold cx_assert.
        destruct (is_true f); [intros E; injection E as <-; exact Hx|]. destruct (cx_box x) as [b|] eqn:Eb; cbn [bind]; [|discriminate]. assert (Vb := Cb b eq_refl).
        destruct (b_empty b); [intros E; injection E as <-; exact Hx|]. destruct (is_false f); [intros E; exact (set_box_vars (b_set_empty b) x x1 Vb Hx E)|].
        destruct (filter_assertion f b) as [[r b']|] eqn:Ef; cbn [bind fst snd]; [|discriminate]. assert (Vb' : bvars b' = V) by (rewrite <- Vb; exact (filter_vars _ _ _ _ Ef)).
        destruct r; [|intros E; exact (set_box_vars _ x x1 Vb' Hx E)|intros E; exact (set_box_vars _ x x1 Vb' Hx E)].
        generalize (process_vars fold K f (cx_next x) Lo). destruct (ite_process fold K f (cx_next x)) as [g s]. cbn [snd]. intros ->. cbn [fold_left].
        destruct (cx_set_box b' x) as [x2|] eqn:E2; cbn [bind]; [|discriminate]. destruct (sat_add_formula fold g (it_next s) (cx_sat x2)) as [q|]; cbn [bind]; [|discriminate]. intros E. injection E as <-.
        exact (set_box_vars _ x x2 Vb' Hx E2).
      - unfold cx_push. destruct (cx_box x) as [b|] eqn:Eb; cbn [bind]; [|discriminate]. intros E. injection E as <- _. cbn [cx_boxes sv_push_back sv_push sv_vec]. apply Forall_app. split; [exact Hx|]. constructor; [exact (Cb b eq_refl)|constructor].
      - unfold cx_pop. destruct (sv_pop (cx_stack x)) as [[? st]| |]; try discriminate. destruct (sv_pop (cx_boxes x)) as [[? bs]| |] eqn:Ep; try discriminate. destruct (sat_pop (cx_sat x)) as [s|]; cbn [bind]; [|discriminate].
        intros E. injection E as <- _. cbn [cx_boxes]. unfold sv_pop in Ep. destruct (sv_scopes (cx_boxes x)) as [|prev sc]; [discriminate|].
        generalize (fun y => poploop_in (length (sv_vec (cx_boxes x))) prev (sv_vec (cx_boxes x)) 0 y). destruct (sv_pop_loop _ _ _ _) as [v k]. cbn [fst]. intros Hin. injection Ep as _ <-. cbn [sv_vec].
        rewrite Forall_forall in *. intros y Hy. apply Hx. exact (Hin y Hy).
      - exfalso. exact (Nc fuel eq_refl).
    Qed.
    Lemma noncheck T T' o x : (forall fuel, o <> OCheck fuel) -> cx_step fold K pico T mid p o x = cx_step fold K pico T' mid p o x.
    Proof. intros H. destruct o; try reflexivity. exfalso. exact (H _ eq_refl). Qed.
    Lemma noncheck_k o x c : (forall fuel, o <> OCheck fuel) -> kstep p o x c = bind (cx_step fold K pico (FT p) mid p o x) (fun q => Some (fst q, c, snd q)).
    Proof. intros H. rewrite (noncheck (FT p) (fun _ _ _ => None) o x H). destruct o; try reflexivity. exfalso. exact (H _ eq_refl). Qed.
    Lemma later_run ops : forall x c, Forall later_op ops -> Forall (fun b => bvars b = V) (sv_vec (cx_boxes x)) -> cgood c ->
      match krun ops p x c with Some (x', _, a) => Some (x', a) | None => None end = prun ops p x.
    Proof.
      induction ops as [|o ops IH]; intros x c Lo Hx Hc; cbn [k_run p_run]; [reflexivity|]. inversion Lo as [|? ? Lo1 Lo2]; subst. destruct o as [o|p']; [|contradiction].
      destruct (match o with OCheck fuel => Some fuel | _ => None end) as [fuel|] eqn:Eo.
      - destruct o; try discriminate. injection Eo as ->. generalize (check_step_good fuel x c Hx Hc). destruct (kstep p (OCheck fuel) x c) as [[[x' c'] a]|]; cbn [bind fst snd]; [|intros ->; reflexivity].
        intros (-> & Hc' & Eb). cbn [bind fst snd]. rewrite <- (IH x' c' Lo2) by (try rewrite Eb; assumption). destruct (krun ops p x' c') as [[[x2 c2] a2]|]; reflexivity.
      - assert (Nc : forall fuel, o <> OCheck fuel) by (intros fuel ->; discriminate). rewrite (noncheck_k o x c Nc).
        destruct (cx_step fold K pico (FT p) mid p o x) as [[x' a]|] eqn:Es; cbn [bind fst snd]; [|reflexivity].
        rewrite <- (IH x' c Lo2 (later_vars _ o x x' a Lo1 Hx Nc Es) Hc). destruct (krun ops p x' c) as [[[x2 c2] a2]|]; reflexivity.
    Qed.
  End Same.

  Definition one_box (x : ctx) : Prop := exists b, sv_vec (cx_boxes x) = [b].
  Lemma set_one b x x' : one_box x -> cx_set_box b x = Some x' -> one_box x'.
  Proof. intros (b0 & E). unfold cx_set_box, sv_set_last. rewrite E. intros E'. injection E' as <-. exists b. reflexivity. Qed.
  Lemma declare_one v mo x x1 : one_box x -> cx_declare v mo x = Some x1 -> one_box x1.
  Proof.
    intros Hx. unfold cx_declare. destruct (cx_box x) as [b|]; cbn [bind]; [|discriminate]. destruct (cx_set_box _ x) as [x2|] eqn:E2; cbn [bind]; [|discriminate]. assert (H2 := set_one _ _ _ Hx E2).
    destruct (mo && negb (mem_var v (cx_mvars x2))); intros E; injection E as <-; exact H2.
  Qed.
  Lemma interval_one v l u x x1 : one_box x -> cx_set_interval v l u x = Some x1 -> one_box x1.
  Proof. intros Hx. unfold cx_set_interval. destruct (cx_box x) as [b|]; cbn [bind]; [|discriminate]. exact (set_one _ _ _ Hx). Qed.
  Lemma setup_one T p o x x' a : setup_op (KOp o) -> one_box x -> cx_step fold K pico T mid p o x = Some (x', a) -> one_box x'.
  Proof.
    intros So Hx. destruct o as [v|v mo|v l u mo|v l u|f| | |fuel]; cbn [cx_step setup_op] in *; try contradiction.
    - destruct (Nat.eqb (vid v) (cx_next x)); [|discriminate]. intros E. injection E as <- _. exact Hx.
    - destruct (cx_declare v mo x) as [x1|] eqn:E1; cbn [bind]; [|discriminate]. intros E. injection E as <- _. exact (declare_one _ _ _ _ Hx E1).
    - destruct (cx_declare v mo x) as [x1|] eqn:E1; cbn [bind]; [|discriminate]. destruct (cx_set_interval v l u x1) as [x2|] eqn:E2; cbn [bind]; [|discriminate]. intros E. injection E as <- _.
      exact (interval_one _ _ _ _ _ (declare_one _ _ _ _ Hx E1) E2).
    - destruct (cx_set_interval v l u x) as [x2|] eqn:E2; cbn [bind]; [|discriminate]. intros E. injection E as <- _. exact (interval_one _ _ _ _ _ Hx E2).
    - destruct (cx_assert fold K f x) as [x1|] eqn:E1; cbn [bind]; [|discriminate]. intros E. injection E as <- _. revert E1. unfold cx_assert.
      destruct (is_true f); [intros E; injection E as <-; exact Hx|]. destruct (cx_box x) as [b|] eqn:Eb; cbn [bind]; [|discriminate].
      destruct (b_empty b); [intros E; injection E as <-; exact Hx|]. destruct (is_false f); [exact (set_one _ _ _ Hx)|].
      destruct (filter_assertion f b) as [[r b']|]; cbn [bind fst snd]; [|discriminate]. destruct r; [|exact (set_one _ _ _ Hx)|exact (set_one _ _ _ Hx)].
      destruct (ite_process fold K f (cx_next x)) as [g s]. destruct (cx_set_box _ x) as [x2|] eqn:E2; cbn [bind]; [|discriminate].
      destruct (sat_add_formula fold g (it_next s) (cx_sat x2)) as [q|]; cbn [bind]; [|discriminate]. intros E. injection E as <-. exact (set_one _ _ _ Hx E2).
  Qed.

  Theorem two_phase_run ops p nx : two_phase ops ->
    match krun ops p (cx_init nx) cache0 with Some (x, _, a) => Some (x, a) | None => None end = prun ops p (cx_init nx).
  Proof.
    intros (a & b & -> & Ha & Hb). assert (G : forall a, Forall setup_op a -> forall p x, one_box x -> match krun (a ++ b) p x cache0 with Some (x, _, a) => Some (x, a) | None => None end = prun (a ++ b) p x).
    { clear - Hb Hloc. induction 1 as [|o a Ho Ha IH]; intros p x Hx; cbn [app].
      - destruct Hx as (b0 & Eb). apply (later_run p (bvars b0)); auto; [rewrite Eb; constructor; auto|]. exists []. split; [intros q []|]. apply inv0.
      - cbn [k_run p_run]. destruct o as [o|p']; [|apply IH; exact Hx]. assert (Nc : forall fuel, o <> OCheck fuel) by (intros fuel ->; exact Ho). rewrite (noncheck_k p o x cache0 Nc).
        destruct (cx_step fold K pico (FT p) mid p o x) as [[x' r]|] eqn:Es; cbn [bind fst snd]; [|reflexivity].
        rewrite <- (IH p x' (setup_one _ p o x x' r Ho Hx Es)). destruct (krun (a ++ b) p x' cache0) as [[[x2 c2] a2]|]; reflexivity. }
    apply G; [exact Ha|]. exists box0. reflexivity.
  Qed.
End Run.

(** Without options set, [p_run] is [cx_run]. *)
Lemma p_run_plain fold K pico T mid p ops : forall x, p_run fold K pico T mid (map KOp ops) p x = cx_run fold K pico (T p) mid p ops x.
Proof. induction ops as [|o ops IH]; intros x; cbn [map p_run cx_run]; [reflexivity|]. destruct (cx_step fold K pico (T p) mid p o x) as [q|]; cbn [bind]; [|reflexivity]. rewrite IH. reflexivity. Qed.
