(** Proofs for SpecPrefix: printing and reading a term *)
From Coq Require Import ZArith Reals Lra Lia List Bool Ascii String ClassicalDescription.
From Flocq Require Import Core.Core IEEE754.BinarySingleNaN.
From Verif Require Import Dbl DblProofs Interval Syntax MathConv Sem IEval ExprAlg StdInterp PowProofs SpecLiteral Literal LiteralProofs LiteralTop Smt2 SpecSmt2 Prefix PrefixNum PrefixRead SpecPrefix PrefixReread PrefixText.
Import ListNotations.
Local Open Scope string_scope.

Lemma deq_B2R c z : is_finite c = true -> (Z.abs z <= 2 ^ 53)%Z -> deq c (dZ z) = true <-> B2R c = IZR z.
Proof.
  intros F B. destruct (MathConvProofs.dZ_exact z B) as [F1 V]. rewrite deq_spec; [|destruct c; [reflexivity|reflexivity|discriminate F|reflexivity]|destruct (dZ z); [reflexivity|reflexivity|discriminate F1|reflexivity]].
  rewrite (finite_d2e _ F), (finite_d2e _ F1), V. split; congruence.
Qed.
Lemma deq_zero c : is_finite c = true -> deq c dzero = true -> B2R c = 0%R.
Proof. intros F H. apply (deq_B2R c 0 F ltac:(cbn; lia)). exact H. Qed.
Lemma deq_zero' c : is_finite c = true -> deq c dzero = false -> B2R c <> 0%R.
Proof. intros F H X. apply (deq_B2R c 0 F ltac:(cbn; lia)) in X. change (deq c dzero = true) in X. congruence. Qed.
Lemma deq_one c : is_finite c = true -> deq c done = true -> B2R c = 1%R.
Proof. intros F H. apply (deq_B2R c 1 F ltac:(cbn; lia)). exact H. Qed.
Lemma decide_t (P : Prop) : P -> decide P = true.
Proof. intros H. unfold decide. destruct (excluded_middle_informative P); tauto. Qed.
Lemma decide_iff (P Q : Prop) : (P <-> Q) -> decide P = decide Q.
Proof. intros H. unfold decide. destruct (excluded_middle_informative P), (excluded_middle_informative Q); tauto. Qed.
Lemma fold_plus l : forall a, fold_left Rplus l a = (a + fold_right Rplus 0 l)%R.
Proof. induction l as [|x l IH]; intros a; cbn; [ring|rewrite IH; ring]. Qed.
Lemma fold_mult l : forall a, fold_left Rmult l a = (a * fold_right Rmult 1 l)%R.
Proof. induction l as [|x l IH]; intros a; cbn; [ring|rewrite IH; ring]. Qed.

Ltac sa := cbn [bin_name]; repeat (progress (cbn [append]; rewrite ?app_as)); reflexivity.

Section RT.
  Variables (under : mode -> string -> bool) (mid : dbl -> dbl -> dbl).
  Hypothesis HM : mid_ok mid.
  Variables (sym : string -> nat) (name : var -> string) (known : var -> Prop).
  Variables (uf : nat -> list R -> R) (rc : dbl -> dbl -> R) (FN : fenv) (E : nenv) (rho : env).
  Let M := std uf rc.
  Hypothesis Hname : forall v, known v -> is_symbol (name v) = true.
  Hypothesis Hval : forall v, known v -> E (sym (name v)) = varval v rho.
  Notation rdt := (rd under mid sym).
  Notation deN := (den M FN).
  Definition good (s : string) (v : SpecSmt2.value) (sh : Prop) : Prop := exists x t, is_text s x /\ rdt x = Some t /\ deN (settle t) E = v /\ (sh -> settle t = t).
  Definition rds (xs : list sexp) : option (list sterm) := fold_right (fun a acc => match rdt a, acc with Some t, Some l => Some (t :: l) | _, _ => None end) (Some []) xs.
  Definition goods (s : string) (vs : list SpecSmt2.value) (sh : Prop) : Prop := exists xs ts, is_tail s xs /\ rds xs = Some ts /\ map (fun t => deN (settle t) E) ts = vs /\ (sh -> map settle ts = ts).
  Lemma rd_list w xs ts : rds xs = Some ts -> rdt (SL (SA w :: xs)) = rd_app sym w ts.
  Proof. intros H. change (rdt (SL (SA w :: xs))) with (match rds xs with Some l => rd_app sym w l | None => None end). rewrite H. reflexivity. Qed.
  Lemma goods_nil sh : goods "" [] sh.
  Proof. exists [], []. split; [apply tail_nil|]. repeat split. Qed.
  Lemma goods_cons s v r vs (s1 s2 sh : Prop) : (sh -> s1 /\ s2) -> good s v s1 -> goods r vs s2 -> goods (" " ++ s ++ r) (v :: vs) sh.
  Proof.
    intros Hs (x & t & A1 & A2 & A3 & A4) (xs & ts & B1 & B2 & B3 & B4). exists (x :: xs), (t :: ts). split; [apply tail_cons; assumption|]. split; [cbn [rds fold_right]; fold (rds xs); rewrite A2, B2; reflexivity|].
    split; [cbn; congruence|]. intros H. destruct (Hs H) as [H1 H2]. cbn. rewrite A4, B4 by assumption. reflexivity.
  Qed.
  Lemma goods_app s vs r ws (s1 s2 sh : Prop) : (sh -> s1 /\ s2) -> goods s vs s1 -> goods r ws s2 -> goods (s ++ r) (vs ++ ws)%list sh.
  Proof.
    intros Hs (xs & ts & A1 & A2 & A3 & A4) (ys & us & B1 & B2 & B3 & B4). exists (xs ++ ys)%list, (ts ++ us)%list. split; [apply tail_app; assumption|].
    split. { clear - A2 B2. revert ts A2. induction xs as [|x xs IH]; intros ts A2; cbn [rds fold_right app] in *; [injection A2 as <-; exact B2|]. fold (rds xs) in A2. fold (rds (xs ++ ys)%list). destruct (rdt x) as [t|]; [|discriminate A2]. destruct (rds xs) as [l|]; [|discriminate A2]. injection A2 as <-. rewrite (IH l eq_refl). reflexivity. }
    split; [rewrite map_app; congruence|]. intros H. destruct (Hs H). rewrite map_app, A4, B4 by assumption. reflexivity.
  Qed.
  Lemma goods_one s v sh : good s v sh -> goods (" " ++ s) [v] sh.
  Proof. intros G. rewrite <- (app_nil s). apply (goods_cons s v "" [] sh True sh); [tauto|exact G|apply goods_nil]. Qed.
  Lemma goods_two s v r w (s1 s2 sh : Prop) : (sh -> s1 /\ s2) -> good s v s1 -> good r w s2 -> goods (" " ++ s ++ " " ++ r) [v; w] sh.
  Proof. intros Hs G1 G2. apply (goods_cons s v (" " ++ r) [w] s1 s2 sh Hs G1 (goods_one _ _ _ G2)). Qed.
  (** An operator applied to the operands *)
  Lemma good_app w r vs (s1 sh : Prop) v : word w -> goods r vs s1 -> (sh -> s1) ->
    (forall ts, map (fun t => deN (settle t) E) ts = vs -> exists t, rd_app sym w ts = Some t /\ deN (settle t) E = v /\ (map settle ts = ts -> settle t = t)) -> good ("(" ++ w ++ r ++ ")") v sh.
  Proof.
    intros W (xs & ts & A1 & A2 & A3 & A4) Hs K. destruct (K ts A3) as (t & K1 & K2 & K3). exists (SL (SA w :: xs)), t. split; [apply list_text; assumption|]. split; [rewrite (rd_list w xs ts A2); exact K1|]. split; [exact K2|]. auto.
  Qed.
  Lemma good_imp s v (a b : Prop) : (b -> a) -> good s v a -> good s v b.
  Proof. intros H (x & t & G1 & G2 & G3 & G4). exists x, t. split; [exact G1|]. split; [exact G2|]. split; auto. Qed.
  Ltac shape ts Hv := intros ts Hv; repeat (let t := fresh "t" in destruct ts as [|t ts]; [try discriminate Hv|try discriminate Hv]).
  Lemma neg_good s r sh : good s (VR r) sh -> good ("(- " ++ s ++ ")") (VR (- r)) sh.
  Proof.
    intros G. apply (good_app "-" (" " ++ s) [VR r] sh sh); [split; [discriminate|reflexivity]|apply goods_one; exact G|auto|].
    intros [|t [|? ?]] Hv; try discriminate Hv. exists (SNeg t). injection Hv as Hv. split; [reflexivity|]. split; [cbn [settle den]; rewrite Hv; reflexivity|]. cbn. intros X. congruence.
  Qed.
  Lemma num_good c : writable c -> dge c dzero = true -> good (fmt19 c) (VR (B2R c)) (short c).
  Proof.
    intros W G. pose proof W as [F _]. destruct (fmt_word c F G) as (t & Wt & Et). destruct (reread_some under mid c W G) as [e R0]. pose proof (reread_ok under mid HM c e F G R0) as Rc. pose proof (reread_exact under mid HM c e F G) as Rx.
    assert (A : rd_atom under mid sym (fmt19 c) = match e with EConst d => Some (SNum d) | EReal lb ub u => Some (SDec lb ub u) | _ => None end).
    { unfold rd_atom. rewrite Et at 1. rewrite (is_number_show t Wt), R0. reflexivity. }
    destruct Rc as [(d & -> & _ & V)|(lb & ub & u & -> & _ & _ & V)].
    - exists (SA (fmt19 c)), (SNum d). split; [apply word_text; rewrite Et; apply number_word; exact Wt|]. split; [exact A|]. split; [cbn [settle den]; f_equal; exact V|reflexivity].
    - exists (SA (fmt19 c)), (SDec lb ub u). split; [apply word_text; rewrite Et; apply number_word; exact Wt|]. split; [exact A|]. split; [cbn [settle den]; f_equal; exact V|]. intros Sh. destruct (Rx Sh R0) as (d & X & _). discriminate X.
  Qed.
  Lemma const_good c : writable c -> good (print_constant c) (VR (B2R c)) (short c).
  Proof.
    intros W. unfold print_constant. destruct (dge c dzero) eqn:G; [apply num_good; assumption|]. pose proof W as (F & W1 & W2).
    assert (Fo : is_finite (Bopp c) = true) by (rewrite is_finite_Bopp; exact F). assert (Vo : B2R (Bopp c) = (- B2R c)%R) by apply B2R_Bopp.
    assert (N : (B2R c < 0)%R). { apply Rnot_le_lt. intros L. assert (X : dge c dzero = true); [|congruence]. unfold dge. apply dle_spec; [reflexivity|destruct c; [reflexivity|reflexivity|discriminate F|reflexivity]|]. rewrite (finite_d2e _ F). change (d2e dzero) with (Fin 0). exact L. }
    replace (B2R c) with (- B2R (Bopp c))%R by (rewrite Vo; ring). apply neg_good. apply (good_imp _ _ (short (Bopp c))); [unfold short; rewrite Vo, Rabs_Ropp; auto|]. apply num_good.
    - unfold writable. rewrite Vo, Rabs_Ropp. split; [exact Fo|]. split; [|exact W2]. destruct W1; [lra|auto].
    - unfold dge. apply dle_spec; [reflexivity|destruct c; [reflexivity|reflexivity|discriminate F|reflexivity]|]. rewrite (finite_d2e _ Fo), Vo. change (d2e dzero) with (Fin 0). cbn. lra.
  Qed.
  Lemma symbol_word s : is_symbol s = true -> word s.
  Proof.
    unfold is_symbol. intros H. apply andb_true_iff in H. destruct H as [H _]. apply andb_true_iff in H. destruct H as [H _]. apply andb_true_iff in H. destruct H as [H _]. destruct s as [|c r]; [discriminate H|]. split; [discriminate|]. apply andb_true_iff in H. destruct H as [H1 H2]. cbn [all_chars]. unfold sym_char at 1. rewrite H1, H2. reflexivity.
  Qed.
  Lemma name_good v : known v -> good (name v) (varval v rho) True.
  Proof.
    intros K. pose proof (Hname v K) as Hs. exists (SA (name v)), (SSym (sym (name v))). split; [apply word_text, symbol_word; exact Hs|]. split; [|split; [cbn [settle den]; apply Hval; exact K|reflexivity]].
    cbn [rd]. unfold rd_atom. pose proof Hs as Hs'. unfold is_symbol in Hs'. apply andb_true_iff in Hs'. destruct Hs' as [H1 H2]. apply andb_true_iff in H1. destruct H1 as [H1 _]. apply andb_true_iff in H1. destruct H1 as [_ H1]. apply negb_true_iff in H1. apply negb_true_iff in H2. rewrite H2.
    assert (N1 : String.eqb (name v) "true" = false). { destruct (String.eqb_spec (name v) "true") as [X|X]; [rewrite X in H1; discriminate H1|reflexivity]. }
    assert (N2 : String.eqb (name v) "false" = false). { destruct (String.eqb_spec (name v) "false") as [X|X]; [rewrite X in H1; discriminate H1|reflexivity]. }
    rewrite N1, N2, Hs. reflexivity.
  Qed.

  Notation PE := (printableE writable known). Notation PF := (printableF writable known).
  Notation SE := (printableE short (fun _ => True)). Notation SF := (printableF short (fun _ => True)).
  Notation ev := (evalE M). Notation hd := (holds M).
  Definition okE (e : expr) : Prop := PE e -> exists s, printE name e = Some s /\ good s (VR (ev e rho)) (SE e).
  Definition okF (f : formula) : Prop := PF f -> exists s, printF name f = Some s /\ good s (VB (decide (hd f rho))) (SF f).
  Lemma vr_fold o vs a : map (fun t => deN t E) vs = map VR (map (fun t => vr (deN t E)) vs) -> deN a E = VR (vr (deN a E)) -> deN (SAri o a vs) E = VR (fold_left (ariR M o) (map (fun t => vr (deN t E)) vs) (vr (deN a E))).
  Proof. intros _ Ha. cbn [den]. destruct vs; [exact Ha|reflexivity]. Qed.
  (** the sum and the product of a list of operands *)
  Lemma plus_good r vs (s1 sh : Prop) v : vs <> [] -> goods r (map VR vs) s1 -> (sh -> s1) -> v = fold_right Rplus 0%R vs -> good ("(+" ++ r ++ ")") (VR v) sh.
  Proof.
    intros Ne G Hs Hv. apply (good_app "+" r (map VR vs) s1 sh); [split; [discriminate|reflexivity]|exact G|exact Hs|]. intros ts Ht. destruct vs as [|v0 vs]; [congruence|]. destruct ts as [|t ts]; [discriminate Ht|]. cbn [map] in Ht. injection Ht as H1 H2.
    exists (SAri APlus t ts). split; [reflexivity|]. split; [|intros X; cbn [settle]; cbn in X; injection X as X1 X2; rewrite X1, X2; reflexivity].
    cbn [settle]. assert (Hm : map (fun x => vr (deN x E)) (map settle ts) = vs). { rewrite map_map. clear - H2. revert vs H2. induction ts as [|u ts IH]; intros [|w vs] H2; try discriminate H2; [reflexivity|]. cbn in *. injection H2 as A B. rewrite A, (IH vs B). reflexivity. }
    rewrite vr_fold; [|rewrite Hm; rewrite map_map; exact H2|rewrite H1; reflexivity]. rewrite Hm, H1. cbn [vr ariR]. rewrite fold_plus, Hv. reflexivity.
  Qed.
  Lemma times_good r vs (s1 sh : Prop) v : 2 <= List.length vs -> goods r (map VR vs) s1 -> (sh -> s1) -> v = fold_right Rmult 1%R vs -> good ("(*" ++ r ++ ")") (VR v) sh.
  Proof.
    intros Ne G Hs Hv. apply (good_app "*" r (map VR vs) s1 sh); [split; [discriminate|reflexivity]|exact G|exact Hs|]. intros ts Ht. destruct vs as [|v0 [|v1 vs]]; cbn in Ne; try lia. destruct ts as [|t [|t' ts]]; try discriminate Ht. cbn [map] in Ht. injection Ht as H1 H1' H2.
    exists (SAri ATimes t (t' :: ts)). split; [reflexivity|]. split; [|intros X; cbn [settle map]; cbn in X; injection X as X1 X1' X2; rewrite X1, X1', X2; reflexivity].
    cbn [settle den map]. rewrite H1, H1'. assert (Hm : map (fun x => vr (deN x E)) (map settle ts) = vs). { rewrite map_map. clear - H2. revert vs H2. induction ts as [|u ts IH]; intros [|w vs] H2; try discriminate H2; [reflexivity|]. cbn in *. injection H2 as A B. rewrite A, (IH vs B). reflexivity. }
    rewrite Hm. cbn [vr ariR fold_left]. rewrite fold_mult, Hv. cbn. f_equal. ring.
  Qed.
  Lemma un_good o s a sh : good s (VR a) sh -> good ("(" ++ un_name o ++ " " ++ s ++ ")") (VR (i_un M o a)) sh.
  Proof.
    intros G. apply (good_app (un_name o) (" " ++ s) [VR a] sh sh); [destruct o; (split; [discriminate|reflexivity])|apply goods_one; exact G|auto|].
    intros [|t [|? ?]] Hv; try discriminate Hv. exists (SFun o t). injection Hv as Hv. split; [destruct o; reflexivity|]. split; [cbn [settle den]; rewrite Hv; reflexivity|]. intros X. cbn in *. congruence.
  Qed.
  Lemma bin_good o s a r b (s1 s2 sh : Prop) : (sh -> s1 /\ s2) -> good s (VR a) s1 -> good r (VR b) s2 -> good ("(" ++ bin_name o ++ " " ++ s ++ " " ++ r ++ ")") (VR (i_bin M o a b)) sh.
  Proof.
    intros Hs G1 G2. replace ("(" ++ bin_name o ++ " " ++ s ++ " " ++ r ++ ")") with ("(" ++ bin_name o ++ (" " ++ s ++ " " ++ r) ++ ")") by sa.
    apply (good_app (bin_name o) (" " ++ s ++ " " ++ r) [VR a; VR b] sh sh); [destruct o; (split; [discriminate|reflexivity])|apply (goods_two _ _ _ _ s1 s2); assumption|auto|].
    intros [|t [|u [|? ?]]] Hv; try discriminate Hv. injection Hv as Hv Hw.
    destruct o.
    - exists (SAri ADiv t [u]). split; [reflexivity|]. split; [cbn [settle den map]; rewrite Hv, Hw; reflexivity|]. intros X. cbn in *. congruence.
    - exists (SFun2 BPow t u). split; [reflexivity|]. split; [cbn [settle den]; rewrite Hv, Hw; reflexivity|]. intros X. cbn in *. congruence.
    - exists (SFun2 BAtan2 t u). split; [reflexivity|]. split; [cbn [settle den]; rewrite Hv, Hw; reflexivity|]. intros X. cbn in *. congruence.
    - exists (SFun2 BMin t u). split; [reflexivity|]. split; [cbn [settle den]; rewrite Hv, Hw; reflexivity|]. intros X. cbn in *. congruence.
    - exists (SFun2 BMax t u). split; [reflexivity|]. split; [cbn [settle den]; rewrite Hv, Hw; reflexivity|]. intros X. cbn in *. congruence.
  Qed.
  Lemma not_good s p sh : good s (VB p) sh -> good ("(not " ++ s ++ ")") (VB (negb p)) sh.
  Proof.
    intros G. apply (good_app "not" (" " ++ s) [VB p] sh sh); [split; [discriminate|reflexivity]|apply goods_one; exact G|auto|].
    intros [|t [|? ?]] Hv; try discriminate Hv. exists (SNot t). injection Hv as Hv. split; [reflexivity|]. split; [cbn [settle den]; rewrite Hv; reflexivity|]. intros X. cbn in *. congruence.
  Qed.
  Lemma rel_good o s a r b (s1 s2 sh : Prop) : (sh -> s1 /\ s2) -> good s (VR a) s1 -> good r (VR b) s2 -> good (rel_open o ++ s ++ " " ++ r ++ rel_close o) (VB (decide (relR o a b))) sh.
  Proof.
    intros Hs G1 G2. assert (Go : goods (" " ++ s ++ " " ++ r) [VR a; VR b] sh) by (apply (goods_two _ _ _ _ s1 s2); assumption).
    assert (Eq : good ("(= " ++ s ++ " " ++ r ++ ")") (VB (decide (a = b))) sh).
    { replace ("(= " ++ s ++ " " ++ r ++ ")") with ("(" ++ "=" ++ (" " ++ s ++ " " ++ r) ++ ")") by sa. apply (good_app "=" _ [VR a; VR b] sh sh); [split; [discriminate|reflexivity]|exact Go|auto|].
      intros [|t [|u [|? ?]]] Hv; try discriminate Hv. injection Hv as Hv Hw. exists (SEq t u). split; [reflexivity|]. split; [cbn [settle den]; rewrite Hv, Hw; reflexivity|]. intros X. cbn in *. congruence. }
    assert (Re : forall o' w, word w -> rd_app sym w = rd_app sym w -> (forall t u, rd_app sym w [t; u] = Some (SRel o' t u)) -> good ("(" ++ w ++ (" " ++ s ++ " " ++ r) ++ ")") (VB (decide (relR o' a b))) sh).
    { intros o' w W _ K. apply (good_app w _ [VR a; VR b] sh sh); [exact W|exact Go|auto|]. intros [|t [|u [|? ?]]] Hv; try discriminate Hv. injection Hv as Hv Hw. exists (SRel o' t u). split; [apply K|]. split; [cbn [settle den]; rewrite Hv, Hw; reflexivity|]. intros X. cbn in *. congruence. }
    destruct o; cbn [rel_open rel_close].
    - exact Eq.
    - replace ("(not (= " ++ s ++ " " ++ r ++ "))") with ("(not " ++ ("(= " ++ s ++ " " ++ r ++ ")") ++ ")") by sa.
      assert (Q : decide (relR RNeq a b) = negb (decide (a = b))) by (unfold decide; destruct (excluded_middle_informative (relR RNeq a b)), (excluded_middle_informative (a = b)); cbn in *; tauto). rewrite Q. apply not_good. exact Eq.
    - replace ("(> " ++ s ++ " " ++ r ++ ")") with ("(" ++ ">" ++ (" " ++ s ++ " " ++ r) ++ ")") by sa. apply Re; [split; [discriminate|reflexivity]|reflexivity|reflexivity].
    - replace ("(>= " ++ s ++ " " ++ r ++ ")") with ("(" ++ ">=" ++ (" " ++ s ++ " " ++ r) ++ ")") by sa. apply Re; [split; [discriminate|reflexivity]|reflexivity|reflexivity].
    - replace ("(< " ++ s ++ " " ++ r ++ ")") with ("(" ++ "<" ++ (" " ++ s ++ " " ++ r) ++ ")") by sa. apply Re; [split; [discriminate|reflexivity]|reflexivity|reflexivity].
    - replace ("(<= " ++ s ++ " " ++ r ++ ")") with ("(" ++ "<=" ++ (" " ++ s ++ " " ++ r) ++ ")") by sa. apply Re; [split; [discriminate|reflexivity]|reflexivity|reflexivity].
  Qed.
  Lemma const_word w v : word w -> (exists t, rdt (SA w) = Some t /\ deN (settle t) E = v /\ settle t = t) -> good w v True.
  Proof. intros W (t & A & B & C). exists (SA w), t. split; [apply word_text; exact W|]. auto. Qed.

  Lemma junct_good fs (w : string) : Forall okF fs -> fold_right (fun g acc => PF g /\ acc) True fs ->
    exists r, fold_right (fun g acc => bind2 (printF name g) acc (fun x r => " " ++ x ++ r)) (Some "") fs = Some r /\
      goods r (map (fun g => VB (decide (hd g rho))) fs) (fold_right (fun g acc => SF g /\ acc) True fs).
  Proof.
    induction 1 as [|g fs Hg Hfs IH]; intros P; cbn [fold_right map] in *; [exists ""; split; [reflexivity|apply goods_nil]|]. destruct P as [P1 P2]. destruct (Hg P1) as (s & E1 & G1). destruct (IH P2) as (r & E2 & G2). rewrite E1, E2. cbn [bind2]. eexists. split; [reflexivity|].
    eapply goods_cons; [|exact G1|exact G2]. tauto.
  Qed.
  Lemma all_good : (forall e, okE e) /\ (forall f, okF f).
  Proof.
    apply expr_formula_ind2; unfold okE, okF.
    - intros c P. exists (print_constant c). split; [reflexivity|]. apply const_good. exact P.
    - intros lb ub u P. destruct P.
    - intros v [K T]. exists (name v). split; [reflexivity|]. cbn [evalE]. replace (VR (rho v)) with (varval v rho) by (unfold varval; destruct (vty v); congruence). apply (good_imp _ _ True); [auto|]. apply name_good. exact K.
    - intros c ts IH (Wc & Ne & P). cbn [printE].
      assert (exists r, fold_right (fun p acc => match p with (a, k) => bind2 (printE name a) acc (fun x r => (if deq k done then " " ++ x else " (* " ++ print_constant k ++ " " ++ x ++ ")") ++ r) end) (Some "") ts = Some r /\
        goods r (map VR (map (fun p => match p with (a, k) => (B2R k * ev a rho)%R end) ts)) (fold_right (fun p acc => match p with (a, k) => (SE a /\ short k) /\ acc end) True ts)) as (r & Er & Gr).
      { clear Ne. induction IH as [|[a k] ts Ha Hts IH]; cbn [fold_right map fst snd] in *; [exists ""; split; [reflexivity|apply goods_nil]|]. destruct P as [[Pa Pk] P]. destruct (Ha Pa) as (s & E1 & G1). destruct (IH P) as (r & E2 & G2). rewrite E1, E2. cbn [bind2]. eexists. split; [reflexivity|].
        destruct (deq k done) eqn:Ek.
        - rewrite app_as. eapply goods_cons; [|eapply good_imp with (b := SE a); [|]|exact G2]; [tauto|intros H; exact H|]. rewrite (deq_one k (proj1 Pk) Ek), Rmult_1_l. exact G1.
        - replace ((" (* " ++ print_constant k ++ " " ++ s ++ ")") ++ r) with (" " ++ ("(*" ++ (" " ++ print_constant k ++ " " ++ s) ++ ")") ++ r) by sa.
          eapply goods_cons with (s1 := SE a /\ short k); [|apply (times_good _ [B2R k; ev a rho] (SE a /\ short k))|exact G2]; [tauto|cbn; lia| |auto|cbn; ring]. cbn [map]. apply (goods_two _ _ _ _ (short k) (SE a)); [tauto|apply const_good; exact Pk|exact G1]. }
      rewrite Er. cbn [option_map]. eexists. split; [reflexivity|]. cbn [evalE].
      assert (Sum : forall z, fold_right (fun p acc => match p with (a, k) => (B2R k * ev a rho + acc)%R end) z ts = (z + fold_right Rplus 0 (map (fun p => match p with (a, k) => (B2R k * ev a rho)%R end) ts))%R).
      { intros z. clear. induction ts as [|[a k] ts IH]; cbn [fold_right map]; [ring|rewrite IH; ring]. }
      rewrite Sum. destruct (deq c dzero) eqn:Ec.
      + pose proof (deq_zero c (proj1 Wc) Ec) as Z0. cbn [append]. apply (plus_good r (map (fun p => match p with (a, k) => (B2R k * ev a rho)%R end) ts) (fold_right (fun p acc => match p with (a, k) => (SE a /\ short k) /\ acc end) True ts)); [destruct ts; [tauto|discriminate]|exact Gr|cbn [printableE]; tauto|rewrite Z0; ring].
      + rewrite <- (app_as (" " ++ print_constant c) r ")"). apply (plus_good ((" " ++ print_constant c) ++ r) (B2R c :: map (fun p => match p with (a, k) => (B2R k * ev a rho)%R end) ts) (short c /\ fold_right (fun p acc => match p with (a, k) => (SE a /\ short k) /\ acc end) True ts)); [discriminate| |cbn [printableE]; tauto|reflexivity].
        rewrite app_as. cbn [map]. eapply goods_cons; [|apply const_good; exact Wc|exact Gr]. tauto.
    - intros c ts IH (Wc & Ne & P). cbn [printE].
      assert (exists r, fold_right (fun p acc => match p with (a, b) => bind2 (if is_oneE b then option_map (fun x => " " ++ x) (printE name a) else bind2 (printE name a) (printE name b) (fun x y => " (^ " ++ x ++ " " ++ y ++ ")")) acc (fun x r => x ++ r) end) (Some "") ts = Some r /\
        goods r (map VR (map (fun p => match p with (a, b) => i_bin M BPow (ev a rho) (ev b rho) end) ts)) (fold_right (fun p acc => match p with (a, b) => (SE a /\ SE b) /\ acc end) True ts)) as (r & Er & Gr).
      { clear Ne. induction IH as [|[a b] ts [Ha Hb] Hts IH]; cbn [fold_right map fst snd] in *; [exists ""; split; [reflexivity|apply goods_nil]|]. destruct P as [[Pa Pb] P]. destruct (Ha Pa) as (s & E1 & G1). destruct (Hb Pb) as (s' & E1' & G1'). destruct (IH P) as (r & E2 & G2). rewrite E1, E1', E2. cbn [option_map bind2].
        destruct (is_oneE b) eqn:Ek; cbn [bind2]; eexists; (split; [reflexivity|]).
        - rewrite app_as. assert (Q : i_bin M BPow (ev a rho) (ev b rho) = ev a rho). { destruct b; try discriminate Ek. cbn [is_oneE] in Ek. cbn [evalE]. rewrite (deq_one _ (proj1 Pb) Ek). apply powR_x1. } rewrite Q. eapply goods_cons; [|exact G1|exact G2]. tauto.
        - replace ((" (^ " ++ s ++ " " ++ s' ++ ")") ++ r) with (" " ++ ("(" ++ bin_name BPow ++ " " ++ s ++ " " ++ s' ++ ")") ++ r) by sa.
          eapply goods_cons with (s1 := SE a /\ SE b); [|apply (bin_good BPow s (ev a rho) s' (ev b rho) (SE a) (SE b)); [tauto|exact G1|exact G1']|exact G2]. tauto. }
      rewrite Er. cbn [option_map]. eexists. split; [reflexivity|]. cbn [evalE].
      assert (Prod : forall z, fold_right (fun p acc => match p with (a, b) => (i_bin M BPow (ev a rho) (ev b rho) * acc)%R end) z ts = (z * fold_right Rmult 1 (map (fun p => match p with (a, b) => i_bin M BPow (ev a rho) (ev b rho) end) ts))%R).
      { intros z. clear. induction ts as [|[a k] ts IH]; cbn [fold_right map]; [ring|rewrite IH; ring]. }
      rewrite Prod. destruct (deq c done) eqn:Ec.
      + pose proof (deq_one c (proj1 Wc) Ec) as Z0. cbn [append]. apply (times_good r (map (fun p => match p with (a, b) => i_bin M BPow (ev a rho) (ev b rho) end) ts) (fold_right (fun p acc => match p with (a, b) => (SE a /\ SE b) /\ acc end) True ts)); [rewrite map_length; tauto|exact Gr|cbn [printableE]; tauto|rewrite Z0; ring].
      + rewrite <- (app_as (" " ++ print_constant c) r ")"). apply (times_good ((" " ++ print_constant c) ++ r) (B2R c :: map (fun p => match p with (a, b) => i_bin M BPow (ev a rho) (ev b rho) end) ts) (short c /\ fold_right (fun p acc => match p with (a, b) => (SE a /\ SE b) /\ acc end) True ts)); [| |cbn [printableE]; tauto|reflexivity].
        * cbn [List.length]. rewrite map_length. destruct ts; [cbn in Ne; destruct Ne as [[_ Ne]|Ne]; [congruence|lia]|cbn [List.length]; lia].
        * rewrite app_as. cbn [map]. eapply goods_cons; [|apply const_good; exact Wc|exact Gr]. tauto.
    - intros o a Ha P. destruct (Ha P) as (s & E1 & G1). cbn [printE]. rewrite E1. eexists. split; [reflexivity|]. apply un_good. exact G1.
    - intros o a b Ha Hb [Pa Pb]. destruct (Ha Pa) as (s & E1 & G1). destruct (Hb Pb) as (r & E2 & G2). cbn [printE]. rewrite E1, E2. eexists. split; [reflexivity|]. apply (bin_good o s _ r _ (SE a) (SE b)); [cbn [printableE]; tauto|exact G1|exact G2].
    - intros f a b Hf Ha Hb (Pf & Pa & Pb). destruct (Hf Pf) as (q & E0 & G0). destruct (Ha Pa) as (s & E1 & G1). destruct (Hb Pb) as (r & E2 & G2). cbn [printE]. fold (printF name f). rewrite E0, E1, E2. eexists. split; [reflexivity|].
      replace ("(ite " ++ q ++ " " ++ s ++ " " ++ r ++ ")") with ("(" ++ "ite" ++ (" " ++ q ++ " " ++ s ++ " " ++ r) ++ ")") by sa.
      apply (good_app "ite" _ [VB (decide (hd f rho)); VR (ev a rho); VR (ev b rho)] (SF f /\ SE a /\ SE b)); [split; [discriminate|reflexivity]| |cbn [printableE]; tauto|].
      + eapply goods_cons; [|exact G0|apply (goods_two _ _ _ _ (SE a) (SE b) (SE a /\ SE b)); [tauto|exact G1|exact G2]]. tauto.
      + intros [|c [|t [|u [|? ?]]]] Hv; try discriminate Hv. injection Hv as Hc Hv Hw. exists (SIte c t u). split; [reflexivity|]. split; [|intros X; cbn in *; congruence]. change (ev (EIte f a b) rho) with (if excluded_middle_informative (hd f rho) then ev a rho else ev b rho). cbn [settle den]. rewrite Hc, Hv, Hw. cbn [vb]. unfold decide. destruct (excluded_middle_informative (hd f rho)); reflexivity.
    - intros n vs P. destruct P.
    - intros _. exists "true". split; [reflexivity|]. apply (good_imp _ _ True); [auto|]. apply const_word; [split; [discriminate|reflexivity]|]. exists STrue. split; [reflexivity|]. split; [cbn [settle den holds]; rewrite decide_t by exact I; reflexivity|reflexivity].
    - intros _. exists "false". split; [reflexivity|]. apply (good_imp _ _ True); [auto|]. apply const_word; [split; [discriminate|reflexivity]|]. exists SFalse. split; [reflexivity|]. split; [cbn [settle den holds]; unfold decide; destruct (excluded_middle_informative False); [contradiction|reflexivity]|reflexivity].
    - intros v [K T]. exists (name v). split; [reflexivity|]. cbn [holds]. replace (VB (decide (rho v = 1%R))) with (varval v rho) by (unfold varval; rewrite T; reflexivity). apply (good_imp _ _ True); [auto|]. apply name_good. exact K.
    - intros o a b Ha Hb [Pa Pb]. destruct (Ha Pa) as (s & E1 & G1). destruct (Hb Pb) as (r & E2 & G2). cbn [printF]. fold (printE name a). fold (printE name b). rewrite E1, E2. eexists. split; [reflexivity|]. apply (rel_good o s _ r _ (SE a) (SE b)); [cbn [printableF]; tauto|exact G1|exact G2].
    - intros fs IH [Ne P]. destruct (junct_good fs "and" IH P) as (r & E1 & G1). cbn [printF]. rewrite E1. eexists. split; [reflexivity|].
      apply (good_app "and" r _ (fold_right (fun g acc => SF g /\ acc) True fs)) with (2 := G1); [split; [discriminate|reflexivity]|cbn [printableF]; tauto|]. intros ts Ht. exists (SAnd ts).
      split; [destruct ts; [destruct fs; [congruence|discriminate Ht]|reflexivity]|]. split; [|intros X; cbn [settle]; rewrite X; reflexivity]. cbn [settle den holds]. f_equal. clear - Ht. revert fs Ht. induction ts as [|t ts IH]; intros [|g fs] Ht; try discriminate Ht; cbn [map forallb fold_right] in *; [rewrite decide_t; auto|].
      injection Ht as A B. rewrite A, (IH fs B). cbn [vb]. unfold decide. fold M. destruct (excluded_middle_informative (hd g rho)), (excluded_middle_informative (fold_right (fun g acc => hd g rho /\ acc) True fs)), (excluded_middle_informative (hd g rho /\ fold_right (fun g acc => hd g rho /\ acc) True fs)); tauto || reflexivity.
    - intros fs IH [Ne P]. destruct (junct_good fs "or" IH P) as (r & E1 & G1). cbn [printF]. rewrite E1. eexists. split; [reflexivity|].
      apply (good_app "or" r _ (fold_right (fun g acc => SF g /\ acc) True fs)) with (2 := G1); [split; [discriminate|reflexivity]|cbn [printableF]; tauto|]. intros ts Ht. exists (SOr ts).
      split; [destruct ts; [destruct fs; [congruence|discriminate Ht]|reflexivity]|]. split; [|intros X; cbn [settle]; rewrite X; reflexivity]. cbn [settle den holds]. f_equal. clear - Ht. revert fs Ht. induction ts as [|t ts IH]; intros [|g fs] Ht; try discriminate Ht; cbn [map existsb fold_right] in *; [unfold decide; destruct (excluded_middle_informative False); [contradiction|reflexivity]|].
      injection Ht as A B. rewrite A, (IH fs B). cbn [vb]. unfold decide. fold M. destruct (excluded_middle_informative (hd g rho)), (excluded_middle_informative (fold_right (fun g acc => hd g rho \/ acc) False fs)), (excluded_middle_informative (hd g rho \/ fold_right (fun g acc => hd g rho \/ acc) False fs)); tauto || reflexivity.
    - intros g Hg P. destruct (Hg P) as (s & E1 & G1). cbn [printF]. rewrite E1. eexists. split; [reflexivity|]. cbn [holds].
      assert (Q : decide (~ hd g rho) = negb (decide (hd g rho))) by (unfold decide; destruct (excluded_middle_informative (~ hd g rho)), (excluded_middle_informative (hd g rho)); cbn; tauto). fold M in Q |- *. rewrite Q. apply not_good. exact G1.
    - intros vs g Hg P. destruct P.
  Qed.
  Theorem expr_round e : PE e -> exists s t, printE name e = Some s /\ read_term under mid sym s = Some t /\ deN (settle t) E = VR (ev e rho) /\ (SE e -> settle t = t).
  Proof. intros P. destruct (proj1 all_good e P) as (s & A & x & t & B & C & D & F). exists s, t. split; [exact A|]. split; [exact (text_read _ _ _ _ _ _ B C)|]. auto. Qed.
  Theorem formula_round f : PF f -> exists s t, printF name f = Some s /\ read_term under mid sym s = Some t /\ deN (settle t) E = VB (decide (hd f rho)) /\ (SF f -> settle t = t).
  Proof. intros P. destruct (proj2 all_good f P) as (s & A & x & t & B & C & D & F). exists s, t. split; [exact A|]. split; [exact (text_read _ _ _ _ _ _ B C)|]. auto. Qed.
End RT.
