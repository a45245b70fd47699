(** The scanner reads back what was written. *)
From Coq Require Import List Bool Ascii String NArith Lia Arith.
From Verif Require Import Scan SpecScan.
From Verif Require SpecLiteral.
Import ListNotations.
Local Open Scope char_scope.
Local Open Scope list_scope.

(** ** Regular expressions *)
Inductive lang : re -> text -> Prop :=
| L_eps : lang Eps []
| L_cls p c : p c = true -> lang (Cls p) [c]
| L_seq a b s t : lang a s -> lang b t -> lang (Seq a b) (s ++ t)
| L_altl a b s : lang a s -> lang (Alt a b) s
| L_altr a b s : lang b s -> lang (Alt a b) s
| L_star0 a : lang (Star a) []
| L_star a s t : lang a s -> lang (Star a) t -> lang (Star a) (s ++ t).
Lemma nullable_lang r : nullable r = true <-> lang r [].
Proof.
  induction r; cbn [nullable]; split; intros H; try discriminate; try (inversion H; fail); try (constructor; fail); try reflexivity.
  - apply andb_true_iff in H. destruct H. change (@nil ascii) with (@nil ascii ++ []). constructor; tauto.
  - inversion H; subst. destruct s, t; try discriminate. apply andb_true_iff. tauto.
  - apply orb_true_iff in H. destruct H; [apply L_altl|apply L_altr]; tauto.
  - apply orb_true_iff. inversion H; subst; tauto.
Qed.
Lemma mkSeq_lang a b s : lang (mkSeq a b) s <-> lang (Seq a b) s.
Proof.
  destruct a; cbn [mkSeq]; try tauto.
  - split; intros H; inversion H; subst. match goal with X : lang Void _ |- _ => inversion X end.
  - split; intros H; [apply (L_seq Eps b [] s); [constructor|auto]|]. inversion H; subst. match goal with X : lang Eps _ |- _ => inversion X; subst end. auto.
Qed.
Lemma mkAlt_lang a b s : lang (mkAlt a b) s <-> lang (Alt a b) s.
Proof.
  assert (V : ~ lang Void s) by (intros X; inversion X).
  assert (A : lang b s <-> lang (Alt Void b) s) by (split; intros H; [apply L_altr; auto|inversion H; subst; tauto]).
  destruct a; cbn [mkAlt]; auto; destruct b; try tauto; split; intros H; try (apply L_altl; auto; fail); inversion H; subst; auto; contradiction.
Qed.
Lemma star_cons a c s : lang (Star a) (c :: s) -> exists t u, s = t ++ u /\ lang a (c :: t) /\ lang (Star a) u.
Proof.
  intros H. remember (Star a) as r eqn:Er. remember (c :: s) as x eqn:Ex. revert c s Ex. induction H; intros c0 s0 Ex; try discriminate.
  injection Er as ->. destruct s as [|d s]; cbn [app] in Ex.
  - apply IHlang2; auto.
  - injection Ex as -> <-. exists s, t. auto.
Qed.
Lemma deriv_lang c r : forall s, lang (deriv c r) s <-> lang r (c :: s).
Proof.
  induction r; intros s; cbn [deriv].
  - split; intros H; inversion H.
  - split; intros H; inversion H.
  - destruct (p c) eqn:E; split; intros H; inversion H; subst; try (constructor; auto); congruence.
  - assert (A : lang (Seq (deriv c r1) r2) s <-> exists t u, s = t ++ u /\ lang r1 (c :: t) /\ lang r2 u).
    { split; intros H; [inversion H; subst; exists s0, t; rewrite <- IHr1; auto|]. destruct H as (t & u & -> & X & Y). constructor; auto. apply IHr1; auto. }
    assert (B : lang (Seq r1 r2) (c :: s) <-> (exists t u, s = t ++ u /\ lang r1 (c :: t) /\ lang r2 u) \/ (lang r1 [] /\ lang r2 (c :: s))).
    { split; intros H.
      - inversion H as [|?|? ? x y Hx Hy E1 E2| | | |]; subst. destruct x as [|d x]; cbn [app] in E2; [subst; auto|]. injection E2 as -> <-. left. exists x, y. auto.
      - destruct H as [(t & u & -> & X & Y)|[X Y]]; [apply (L_seq r1 r2 (c :: t) u); auto|apply (L_seq r1 r2 [] (c :: s)); auto]. }
    rewrite B. destruct (nullable r1) eqn:En.
    + rewrite mkAlt_lang. apply nullable_lang in En. split; intros H.
      * inversion H; subst; [left; apply A, mkSeq_lang; auto|right; split; auto; apply IHr2; auto].
      * destruct H as [H|[_ H]]; [apply L_altl, mkSeq_lang, A; auto|apply L_altr, IHr2; auto].
    + rewrite mkSeq_lang, A. split; [auto|]. intros [H|[H _]]; auto. apply nullable_lang in H. congruence.
  - rewrite mkAlt_lang. split; intros H; inversion H; subst; (apply L_altl + apply L_altr); try (apply IHr1; auto; fail); apply IHr2; auto.
  - rewrite mkSeq_lang. split; intros H.
    + inversion H; subst. apply (L_star r (c :: s0) t); auto. apply IHr; auto.
    + destruct (star_cons _ _ _ H) as (t & u & -> & X & Y). constructor; auto. apply IHr; auto.
Qed.
Lemma matchb_lang r s : matchb r s = true <-> lang r s.
Proof. unfold matchb. revert r. induction s as [|c s IH]; intros r; cbn [derivs]; [apply nullable_lang|]. rewrite IH. apply deriv_lang. Qed.

Lemma derivs_void s : derivs s Void = Void.
Proof. induction s; auto. Qed.
Lemma longest_void n b s : longest_from n b Void s = b.
Proof. revert n. induction s as [|c s IH]; intros n; cbn [longest_from nullable deriv]; auto. Qed.
Lemma longest_none r s : forall k b, (forall j, j <= List.length s -> matchb r (firstn j s) = false) -> longest_from k b r s = b.
Proof.
  revert r. induction s as [|c s IH]; intros r k b H; cbn [longest_from].
  - specialize (H 0 (le_n 0)). unfold matchb in H. cbn in H. rewrite H. auto.
  - pose proof (H 0 ltac:(lia)) as H0. unfold matchb in H0. cbn [firstn derivs] in H0. rewrite H0. apply IH. intros j Hj. apply (H (S j)). cbn [List.length]. lia.
Qed.
Lemma longest_some r s : forall k b j, j <= List.length s -> matchb r (firstn j s) = true -> (forall m, j < m -> m <= List.length s -> matchb r (firstn m s) = false) ->
  longest_from k b r s = Some (k + j).
Proof.
  revert r. induction s as [|c s IH]; intros r k b j Hj H1 H2; cbn [longest_from].
  - assert (j = 0) by (cbn in Hj; lia). subst j. unfold matchb in H1. cbn in H1. rewrite H1. f_equal. lia.
  - destruct j as [|j].
    + unfold matchb in H1. cbn [firstn derivs] in H1. rewrite H1, longest_none; [f_equal; lia|]. intros i Hi. apply (H2 (S i)); cbn [List.length]; lia.
    + rewrite (IH _ _ _ j); [f_equal; lia| cbn in Hj; lia| exact H1 |]. intros m A B. apply (H2 (S m)); cbn [List.length]; lia.
Qed.
Lemma longest_cases r s : (forall j, j <= List.length s -> matchb r (firstn j s) = false) \/
  exists j, j <= List.length s /\ matchb r (firstn j s) = true /\ forall m, j < m -> m <= List.length s -> matchb r (firstn m s) = false.
Proof.
  revert r. induction s as [|c s IH]; intros r.
  - destruct (matchb r []) eqn:E; [right; exists 0; cbn; repeat split; auto; intros; lia|left; intros j Hj; rewrite firstn_nil; auto].
  - destruct (IH (deriv c r)) as [N|(j & Hj & A & B)].
    + destruct (matchb r []) eqn:E.
      * right. exists 0. split; [lia|]. split; auto. intros [|m] X Y; [lia|]. apply (N m). cbn in Y. lia.
      * left. intros [|j] Hj; auto. apply (N j). cbn in Hj. lia.
    + right. exists (S j). split; [cbn; lia|]. split; auto. intros [|m] X Y; [lia|]. apply (B m); cbn in Y; lia.
Qed.
Lemma longest_inv r s n : longest r s = Some n -> n <= List.length s /\ matchb r (firstn n s) = true.
Proof.
  unfold longest. intros H. destruct (longest_cases r s) as [N|(j & Hj & A & B)].
  - rewrite longest_none in H by auto. discriminate.
  - rewrite (longest_some r s 0 None j) in H by auto. assert (n = j) by (cbn in H; congruence). subst. auto.
Qed.
Lemma longest_all r s : matchb r s = true -> longest r s = Some (List.length s).
Proof. intros H. unfold longest. rewrite (longest_some r s 0 None (List.length s)); auto; [rewrite firstn_all; auto|]. intros; lia. Qed.

(** ** Choosing a rule *)
Lemma pick_in rs s n a : pick rs s = Some (n, a) -> exists r, In (r, a) rs /\ longest r s = Some n.
Proof.
  induction rs as [|[r b] rs IH]; cbn [pick]; [discriminate|]. destruct (longest r s) as [m|] eqn:El.
  - destruct (pick rs s) as [[m' b']|] eqn:Ep.
    + destruct (Nat.ltb m m').
      * intros E. assert (m' = n /\ b' = a) as [-> ->] by (split; congruence). destruct (IH eq_refl) as (r' & X & Y). exists r'. split; [right|]; auto.
      * intros E. assert (m = n /\ b = a) as [-> ->] by (split; congruence). exists r. split; [left|]; auto.
    + intros E. assert (m = n /\ b = a) as [-> ->] by (split; congruence). exists r. split; [left|]; auto.
  - intros E. destruct (IH E) as (r' & X & Y). exists r'. split; [right|]; auto.
Qed.
Lemma pick_full rs1 r a rs2 w : matchb r w = true -> (forall q b, In (q, b) rs1 -> matchb q w = false) -> pick (rs1 ++ (r, a) :: rs2) w = Some (List.length w, a).
Proof.
  intros H HN. induction rs1 as [|[q b] rs1 IH]; cbn [app pick].
  - rewrite (longest_all _ _ H). destruct (pick rs2 w) as [[m c]|] eqn:E; auto. destruct (pick_in _ _ _ _ E) as (q & _ & L). apply longest_inv in L.
    destruct (Nat.ltb_spec (List.length w) m); [lia|auto].
  - rewrite IH by (intros; eapply HN; right; eauto). destruct (longest q w) as [m|] eqn:E; auto. apply longest_inv in E. destruct E as [Hm M].
    destruct (Nat.ltb_spec m (List.length w)); auto. assert (m = List.length w) by lia. subst m. rewrite firstn_all in M. rewrite (HN q b) in M; [discriminate|left; auto].
Qed.
Lemma pick_ext rs s t : (forall q b, In (q, b) rs -> longest q s = longest q t) -> pick rs s = pick rs t.
Proof. induction rs as [|[q b] rs IH]; intros H; cbn [pick]; auto. rewrite (H q b) by (left; auto). rewrite IH; auto. intros; eapply H; right; eauto. Qed.
Definition is_void (r : re) : bool := match r with Void => true | _ => false end.
Lemma is_void_eq r : is_void r = true -> r = Void.
Proof. destruct r; auto; discriminate. Qed.
Lemma longest_dead r c s : nullable r = false -> deriv c r = Void -> longest r (c :: s) = None.
Proof. intros N D. unfold longest. cbn [longest_from]. rewrite N, D. apply longest_void. Qed.
Definition dead (c : ascii) (ra : re * action) : bool := negb (nullable (fst ra)) && is_void (deriv c (fst ra)).
Lemma pick_dead rs1 rs2 c s : forallb (dead c) rs1 = true -> pick (rs1 ++ rs2) (c :: s) = pick rs2 (c :: s).
Proof.
  induction rs1 as [|[q b] rs1 IH]; intros H; cbn [app pick]; auto. cbn [forallb] in H. apply andb_true_iff in H. destruct H as [H1 H2]. unfold dead in H1. cbn [fst] in H1.
  apply andb_true_iff in H1. destruct H1 as [A B]. apply negb_true_iff in A. apply is_void_eq in B. rewrite longest_dead; auto.
Qed.

(** All bytes *)
Lemma all_bytes (P : ascii -> bool) : forallb P (map ascii_of_nat (seq 0 256)) = true -> forall c, P c = true.
Proof.
  intros H c. rewrite forallb_forall in H. apply H. apply in_map_iff. exists (nat_of_ascii c). split; [apply ascii_nat_embedding|]. apply in_seq. pose proof (nat_ascii_bounded c). lia.
Qed.
Lemma rules_not_nullable : forallb (fun ra => negb (nullable (fst ra))) rules = true.
Proof. vm_compute. reflexivity. Qed.
Lemma pick_pos s n a : pick rules s = Some (n, a) -> 1 <= n <= List.length s.
Proof.
  intros H. destruct (pick_in _ _ _ _ H) as (r & X & L). apply longest_inv in L. destruct L as [A B]. split; auto. destruct n; [|lia].
  pose proof rules_not_nullable as N. rewrite forallb_forall in N. specialize (N _ X). cbn [fst] in N. unfold matchb in B. cbn [firstn derivs] in B. rewrite B in N. discriminate.
Qed.

(** ** The amount of fuel does not matter *)
Lemma in_str_len acc s t r : in_str acc s = Some (t, r) -> List.length r < List.length s.
Proof.
  remember (List.length s) as n eqn:En. revert acc s En. induction n as [n IH] using lt_wf_ind. intros acc s En H. destruct s as [|c s]; [discriminate|]. cbn [in_str] in H. cbn [List.length] in En.
  destruct (is QUOTE c).
  - destruct s as [|d s]; [assert (r = []) by congruence; subst; cbn; lia|]. cbn [List.length] in *. destruct (is QUOTE d).
    + assert (X : List.length r < List.length s); [|lia]. eapply (IH (List.length s)); eauto. lia.
    + assert (r = d :: s) by congruence. subst r. cbn. lia.
  - assert (X : List.length r < List.length s); [|lia]. eapply (IH (List.length s)); eauto. lia.
Qed.
Lemma in_quoted_len s : forall acc t r, in_quoted acc s = Some (t, r) -> List.length r < List.length s.
Proof.
  induction s as [|c s IH]; intros acc t r H; [discriminate|]. cbn [in_quoted] in H. cbn [List.length]. destruct (is BAR c); [assert (r = s) by congruence; subst; lia|].
  destruct (is BSL c); apply IH in H; lia.
Qed.
Lemma pick_nil : pick rules [] = None.
Proof. vm_compute. reflexivity. Qed.
Lemma fuel n : forall m s, List.length s <= n -> List.length s <= m -> scan_n n s = scan_n m s.
Proof.
  induction n as [|n IH]; intros m s Hn Hm.
  - destruct s; [|cbn in Hn; lia]. destruct m; cbn [scan_n]; rewrite ?pick_nil; auto.
  - destruct m as [|m]; [destruct s; [|cbn in Hm; lia]; cbn [scan_n]; rewrite pick_nil; auto|].
    cbn [scan_n]. destruct (pick rules s) as [[k a]|] eqn:Ep; auto. apply pick_pos in Ep. pose proof (skipn_length k s) as L.
    destruct a as [|f| |].
    + apply IH; lia.
    + rewrite (IH m) by lia. auto.
    + destruct (in_str [QUOTE] (skipn k s)) as [[t r]|] eqn:E; auto. apply in_str_len in E. rewrite (IH m) by lia. auto.
    + destruct (in_quoted [BAR] (skipn k s)) as [[t r]|] eqn:E; auto. apply in_quoted_len in E. rewrite (IH m) by lia. auto.
Qed.
Lemma scan_pick s k a : pick rules s = Some (k, a) -> scan s =
  match a with
  | Skip => scan (skipn k s)
  | Emit f => option_map (cons (f (firstn k s))) (scan (skipn k s))
  | BeginStr => match in_str [QUOTE] (skipn k s) with Some (t, s') => option_map (cons (STRING t)) (scan s') | None => Some [] end
  | BeginQuoted => match in_quoted [BAR] (skipn k s) with Some (t, s') => option_map (cons (SYMBOL t)) (scan s') | None => Some [] end
  end.
Proof.
  intros H. pose proof (pick_pos _ _ _ H) as P. pose proof (skipn_length k s) as L. unfold scan at 1. destruct s as [|c s]; [cbn in P; lia|].
  cbn [List.length]. cbn [scan_n]. rewrite H. cbn [List.length] in *. destruct a as [|f| |]; unfold scan.
  - apply fuel; lia.
  - rewrite (fuel _ (List.length (skipn k (c :: s)))) by lia. auto.
  - destruct (in_str _ _) as [[t r]|] eqn:E; auto. apply in_str_len in E. rewrite (fuel _ (List.length r)) by lia. auto.
  - destruct (in_quoted _ _) as [[t r]|] eqn:E; auto. apply in_quoted_len in E. rewrite (fuel _ (List.length r)) by lia. auto.
Qed.

(** ** Gaps *)
Lemma longest_eps n b s : longest_from n b Eps s = Some n.
Proof. destruct s; cbn [longest_from nullable deriv]; auto. apply longest_void. Qed.
Lemma longest_dot c s : dot c = true -> longest (Cls dot) (c :: s) = Some 1.
Proof. intros H. unfold longest. cbn [longest_from nullable deriv]. rewrite H. apply longest_eps. Qed.
Fixpoint run (q : ascii -> bool) (s : text) : nat := match s with c :: s' => if q c then S (run q s') else 0 | [] => 0 end.
Lemma longest_star q s : forall n b, longest_from n b (Star (Cls q)) s = Some (n + run q s).
Proof.
  induction s as [|c s IH]; intros n b; cbn [longest_from nullable deriv run]; [f_equal; lia|]. destruct (q c); cbn [mkSeq].
  - rewrite IH. f_equal. lia.
  - rewrite longest_void. f_equal. lia.
Qed.
Lemma longest_plus q c s : q c = true -> longest (plus (Cls q)) (c :: s) = Some (S (run q s)).
Proof. intros H. unfold longest, plus. cbn [longest_from nullable deriv]. rewrite H. cbn [mkSeq andb nullable]. apply longest_star. Qed.
Lemma run_skip q c s : q c = true -> skipn (run q (c :: s)) (c :: s) = skipn (run q s) s.
Proof. intros H. cbn [run]. rewrite H. auto. Qed.
Definition ws := oneof [" "; TAB; CR].
Definition before_blanks := (comment, Skip) :: map (fun kv => (word (lit (fst kv)), Emit (fun _ => TK (snd kv)))) reserved.
Definition after_blanks := [(newline, Skip); (r_int, Emit INT); (r_double, Emit DOUBLE); (r_double2, Emit DOUBLE); (r_hex, Emit HEXFLOAT);
   (r_symbol, Emit SYMBOL); (r_keyword, Emit KEYWORD); (ch QUOTE, BeginStr); (ch BAR, BeginQuoted)].
Definition dot_rule : re * action := (Cls dot, Emit (fun t => CHAR (first_char t))).
Lemma rules_split : rules = before_blanks ++ (blanks, Skip) :: (after_blanks ++ [dot_rule]).
Proof. reflexivity. Qed.
Lemma ws_cases c : ws c = true -> c = " " \/ c = TAB \/ c = CR.
Proof. unfold ws, oneof. cbn [existsb]. rewrite !orb_true_iff, !Ascii.eqb_eq. intuition congruence. Qed.
Lemma pick_dot c s : dot c = true -> pick [dot_rule] (c :: s) = Some (1, snd dot_rule).
Proof. intros H. cbn [pick dot_rule]. rewrite longest_dot; auto. Qed.
Lemma pick_blank c s : ws c = true -> pick rules (c :: s) = Some (S (run ws s), Skip).
Proof.
  intros H. rewrite rules_split. rewrite pick_dead by (destruct (ws_cases c H) as [->|[->| ->]]; vm_compute; reflexivity).
  cbn [pick]. unfold blanks. change (oneof [" "; TAB; CR]) with ws. rewrite longest_plus by auto.
  rewrite pick_dead by (destruct (ws_cases c H) as [->|[->| ->]]; vm_compute; reflexivity).
  rewrite pick_dot by (destruct (ws_cases c H) as [->|[->| ->]]; vm_compute; reflexivity). auto.
Qed.
Lemma scan_run s : scan s = scan (skipn (run ws s) s).
Proof. destruct s as [|c s]; auto. cbn [run]. destruct (ws c) eqn:E; auto. rewrite (scan_pick _ _ _ (pick_blank c s E)). auto. Qed.
Lemma scan_ws c s : ws c = true -> scan (c :: s) = scan s.
Proof. intros H. rewrite (scan_pick _ _ _ (pick_blank c s H)). cbn [skipn]. symmetry. apply scan_run. Qed.
Lemma pick_lf s : pick rules (LF :: s) = Some (1, Skip).
Proof.
  rewrite rules_split. rewrite pick_dead by (vm_compute; reflexivity). replace ((blanks, Skip) :: after_blanks ++ [dot_rule]) with ([(blanks, Skip)] ++ (newline, Skip) :: (tl after_blanks ++ [dot_rule])) by reflexivity.
  rewrite pick_dead by (vm_compute; reflexivity). cbn [pick]. unfold newline, ch, longest. cbn [longest_from nullable deriv]. change (is LF LF) with true. cbn iota. rewrite longest_eps.
  assert (E : pick (tl after_blanks ++ [dot_rule]) (LF :: s) = None). { rewrite pick_dead by (vm_compute; reflexivity). cbn [pick dot_rule]. rewrite longest_dead; auto. }
  rewrite E. auto.
Qed.
Lemma scan_blank c s : In c [" "; TAB; LF; CR] -> scan (c :: s) = scan s.
Proof. intros [<-|[<-|[<-|[<-|[]]]]]; try (apply scan_ws; reflexivity). rewrite (scan_pick _ _ _ (pick_lf s)). reflexivity. Qed.
Definition nl := oneof [LF; CR].
Lemma nl_cases c : nl c = true -> c = LF \/ c = CR.
Proof. unfold nl, oneof. cbn [existsb]. rewrite !orb_true_iff, !Ascii.eqb_eq. intuition congruence. Qed.
Lemma scan_nl s : scan (skipn (run nl s) s) = scan s.
Proof.
  induction s as [|c s IH]; auto. cbn [run]. destruct (nl c) eqn:E; auto. cbn [skipn]. rewrite IH. symmetry. apply scan_blank. destruct (nl_cases c E) as [->| ->]; cbn [In]; auto.
Qed.
Lemma star_all q t : forallb q t = true -> lang (Star (Cls q)) t.
Proof. induction t as [|c t IH]; intros H; [constructor|]. cbn in H. apply andb_true_iff in H. change (c :: t) with ([c] ++ t). constructor; [constructor|]; tauto. Qed.
Lemma star_inv q t : lang (Star (Cls q)) t -> forallb q t = true.
Proof.
  induction t as [|c t IH]; intros H; auto. destruct (star_cons _ _ _ H) as (a & b & -> & X & Y). inversion X; subst. cbn [app] in *. cbn [forallb]. match goal with E : q c = true |- _ => rewrite E end. apply IH. auto.
Qed.
Lemma seq_inv a b x : lang (Seq a b) x -> exists s t, x = s ++ t /\ lang a s /\ lang b t.
Proof. intros H. inversion H; subst. eauto. Qed.
Lemma cls_inv p x : lang (Cls p) x -> exists c, x = [c] /\ p c = true.
Proof. intros H. inversion H; subst. eauto. Qed.
Lemma comment_inv x : lang comment x -> exists a b d, x = ";" :: a ++ d :: b /\ forallb dot a = true /\ nl d = true /\ forallb nl b = true.
Proof.
  unfold comment, ch, plus. intros H. destruct (seq_inv _ _ _ H) as (x1 & x2 & -> & H1 & H2). destruct (cls_inv _ _ H1) as (c & -> & E). destruct (seq_inv _ _ _ H2) as (a & y & -> & H3 & H4).
  destruct (seq_inv _ _ _ H4) as (x3 & b & -> & H5 & H6). destruct (cls_inv _ _ H5) as (d & -> & F). exists a, b, d. assert (c = ";") by (symmetry; apply Ascii.eqb_eq; auto). subst c.
  split; [reflexivity|]. split; [apply star_inv; auto|]. split; [auto|apply star_inv; auto].
Qed.
Lemma no_lf t : ~ In LF t -> forallb dot t = true.
Proof. intros H. apply forallb_forall. intros c Hc. unfold dot, is. destruct (Ascii.eqb_spec LF c); auto. subst. contradiction. Qed.
Lemma run_firstn q s : forallb q (firstn (run q s) s) = true.
Proof. induction s as [|c s IH]; cbn [run]; auto. destruct (q c) eqn:E; cbn [firstn forallb]; auto. rewrite E. auto. Qed.
Lemma run_next q s k : forallb q (firstn k s) = true -> k <= List.length s -> k <= run q s.
Proof.
  revert k. induction s as [|c s IH]; intros [|k] H L; cbn [List.length] in *; try lia. cbn [firstn forallb run] in *. destruct (q c); [|discriminate]. cbn in H. specialize (IH k H). lia.
Qed.
Lemma run_le q s : run q s <= List.length s.
Proof. induction s as [|c s IH]; cbn [run List.length]; auto. destruct (q c); lia. Qed.
Lemma forallb_split (q : ascii -> bool) a b : forallb q (a ++ b) = true <-> forallb q a = true /\ forallb q b = true.
Proof. rewrite forallb_app, andb_true_iff. tauto. Qed.
Lemma lf_split t u a d b : ~ In LF t -> t ++ LF :: u = a ++ d :: b -> forallb dot a = true -> forallb nl (d :: b) = true -> forallb nl u = true.
Proof.
  revert a. induction t as [|x t IH]; intros a N E Ha Hb; cbn [app] in E.
  - destruct a as [|y a]; cbn [app] in E.
    + injection E as <- <-. cbn [forallb] in Hb. apply andb_true_iff in Hb. tauto.
    + injection E as <- _. cbn [forallb] in Ha. discriminate Ha.
  - destruct a as [|y a]; cbn [app] in E.
    + injection E as <- <-. cbn [forallb] in Hb. apply andb_true_iff in Hb. destruct Hb as [_ Hb]. apply forallb_split in Hb. destruct Hb as [_ Hb]. cbn [forallb] in Hb. apply andb_true_iff in Hb. tauto.
    + injection E as <- E. cbn [forallb] in Ha. apply andb_true_iff in Ha. apply (IH a); try tauto. intros X. apply N. right. auto.
Qed.
Lemma longest_comment t s : ~ In LF t -> longest comment (";" :: t ++ LF :: s) = Some (2 + List.length t + run nl s).
Proof.
  intros N. unfold longest. rewrite (longest_some comment _ 0 None (2 + List.length t + run nl s)); auto.
  - cbn [List.length]. rewrite app_length. cbn [List.length]. pose proof (run_le nl s). lia.
  - apply matchb_lang. replace (2 + List.length t + run nl s) with (S (List.length t + S (run nl s))) by lia. cbn [firstn]. rewrite firstn_app_2. cbn [firstn].
    unfold comment, ch, plus. change (";" :: t ++ LF :: firstn (run nl s) s) with ([";"] ++ (t ++ ([LF] ++ firstn (run nl s) s))).
    constructor; [constructor; reflexivity|]. constructor; [apply star_all, no_lf; auto|]. constructor; [constructor; reflexivity|]. apply star_all. apply run_firstn.
  - intros m Hm L. destruct (matchb comment (firstn m (";" :: t ++ LF :: s))) eqn:E; auto. exfalso. apply matchb_lang in E. destruct (comment_inv _ E) as (a & b & d & X & A & B & C).
    cbn [List.length] in L. rewrite app_length in L. cbn [List.length] in L.
    replace m with (S (List.length t + S (m - 2 - List.length t))) in X by lia. cbn [firstn] in X. rewrite firstn_app_2 in X. cbn [firstn] in X. assert (Y : t ++ LF :: firstn (m - 2 - List.length t) s = a ++ d :: b) by congruence.
    pose proof (lf_split _ _ _ _ _ N Y A) as Z. cbn [forallb] in Z. rewrite B, C in Z. specialize (Z eq_refl). apply run_next in Z; lia.
Qed.
Lemma pick_first r a rs s n m b : longest r s = Some n -> pick rs s = Some (m, b) -> m <= n -> pick ((r, a) :: rs) s = Some (n, a).
Proof. intros A B C. cbn [pick]. rewrite A, B. destruct (Nat.ltb_spec n m); auto. lia. Qed.
Lemma rules_comment : rules = (comment, Skip) :: (tl before_blanks ++ (blanks, Skip) :: after_blanks) ++ [dot_rule].
Proof. reflexivity. Qed.
Lemma comment_dead : forallb (dead ";") (tl before_blanks ++ (blanks, Skip) :: after_blanks) = true.
Proof. vm_compute. reflexivity. Qed.
Lemma pick_comment t s : ~ In LF t -> pick rules (";" :: t ++ LF :: s) = Some (2 + List.length t + run nl s, Skip).
Proof.
  intros N. rewrite rules_comment. apply (pick_first _ _ _ _ _ 1 (snd dot_rule)); [apply longest_comment; auto| |lia]. rewrite (pick_dead _ _ _ _ comment_dead). apply pick_dot. reflexivity.
Qed.
Lemma scan_comment t s : ~ In LF t -> scan (";" :: t ++ LF :: s) = scan s.
Proof.
  intros N. pose proof (pick_comment t s N) as P.
  rewrite (scan_pick _ _ _ P). replace (2 + List.length t + run nl s) with (S (List.length (t ++ [LF]) + run nl s)) by (rewrite app_length; cbn; lia). cbn [skipn].
  replace (t ++ LF :: s) with ((t ++ [LF]) ++ s) by (rewrite <- app_assoc; auto). rewrite skipn_app. rewrite (skipn_all2 (t ++ [LF])) by lia. cbn [app].
  replace (List.length (t ++ [LF]) + run nl s - List.length (t ++ [LF])) with (run nl s) by lia. apply scan_nl.
Qed.
Lemma scan_gap g s : Forall gap_item_ok g -> scan (show_gap g ++ s) = scan s.
Proof.
  induction g as [|[c|t] g IH]; intros H; cbn [show_gap flat_map show_gap_item app]; auto; inversion H; subst; fold (show_gap g).
  - rewrite scan_blank by auto. auto.
  - rewrite <- !app_assoc. cbn [app]. rewrite scan_comment by auto. auto.
Qed.

(** ** Words *)
Definition delims : text := [" "; TAB; LF; CR; "("; ")"; ";"; QUOTE; BAR].
Fixpoint avoids (d : ascii) (r : re) : bool :=
  match r with Void | Eps => true | Cls p => negb (p d) | Seq a b | Alt a b => avoids d a && avoids d b | Star a => avoids d a end.
Lemma avoids_mkSeq d a b : avoids d a = true -> avoids d b = true -> avoids d (mkSeq a b) = true.
Proof. intros A B. destruct a; cbn [mkSeq avoids] in *; auto; rewrite ?A, ?B; auto. Qed.
Lemma avoids_mkAlt d a b : avoids d a = true -> avoids d b = true -> avoids d (mkAlt a b) = true.
Proof. intros A B. destruct a; cbn [mkAlt]; auto; destruct b; auto; cbn [avoids] in *; rewrite ?A, ?B; auto. Qed.
Lemma avoids_deriv d c r : avoids d r = true -> avoids d (deriv c r) = true.
Proof.
  induction r; cbn [avoids deriv]; intros H; auto.
  - destruct (p c); auto.
  - apply andb_true_iff in H. destruct H. destruct (nullable r1); [apply avoids_mkAlt|]; auto; apply avoids_mkSeq; auto.
  - apply andb_true_iff in H. destruct H. apply avoids_mkAlt; auto.
  - apply avoids_mkSeq; auto.
Qed.
Lemma avoids_dead d r : avoids d r = true -> deriv d r = Void.
Proof.
  induction r; cbn [avoids deriv]; intros H; auto.
  - apply negb_true_iff in H. rewrite H. auto.
  - apply andb_true_iff in H. destruct H. rewrite IHr1, IHr2 by auto. cbn. destruct (nullable r1); auto.
  - apply andb_true_iff in H. destruct H. rewrite IHr1, IHr2 by auto. auto.
  - rewrite IHr by auto. auto.
Qed.
Lemma avoids_match d w : forall r, avoids d r = true -> In d w -> matchb r w = false.
Proof.
  induction w as [|c w IH]; intros r H X; [destruct X|]. unfold matchb. cbn [derivs]. destruct X as [->|X].
  - rewrite avoids_dead by auto. rewrite derivs_void. auto.
  - apply (IH (deriv c r)); auto. apply avoids_deriv; auto.
Qed.
Definition ends (s : text) : Prop := match s with [] => True | d :: _ => In d delims end.
Lemma longest_stop s : ends s -> forall w k b r, (forall d, In d delims -> avoids d r = true) -> longest_from k b r (w ++ s) = longest_from k b r w.
Proof.
  intros E. induction w as [|c w IH]; intros k b r H; cbn [app longest_from].
  - destruct s as [|d s]; auto. cbn [longest_from ends] in *. rewrite avoids_dead by auto. apply longest_void.
  - apply IH. intros d Hd. apply avoids_deriv; auto.
Qed.
Definition nondelim (c : ascii) : bool := negb (oneof delims c).
Lemma rules_avoid c : nondelim c = true -> forall q b, In (q, b) rules -> forall d, In d delims -> avoids d (deriv c q) = true.
Proof.
  intros H q b Hq d Hd.
  pose proof (all_bytes (fun c => negb (nondelim c) || forallb (fun ra => forallb (fun d => avoids d (deriv c (fst ra))) delims) rules) ltac:(vm_compute; reflexivity) c) as A.
  cbn beta in A. rewrite H in A. cbn [negb orb] in A. rewrite forallb_forall in A. specialize (A _ Hq). cbn [fst] in A. rewrite forallb_forall in A. auto.
Qed.
Lemma pick_word c w s : nondelim c = true -> ends s -> pick rules ((c :: w) ++ s) = pick rules (c :: w).
Proof.
  intros H E. apply pick_ext. intros q b Hq. unfold longest. cbn [app longest_from]. apply longest_stop; auto. eapply rules_avoid; eauto.
Qed.
Lemma scan_word c w s f : nondelim c = true -> ends s -> pick rules (c :: w) = Some (List.length (c :: w), Emit f) ->
  scan ((c :: w) ++ s) = option_map (cons (f (c :: w))) (scan s).
Proof.
  intros H E P. rewrite <- (pick_word c w s H E) in P. rewrite (scan_pick _ _ _ P). rewrite firstn_app, skipn_app, firstn_all, skipn_all, Nat.sub_diag. cbn [firstn skipn]. rewrite app_nil_r. auto.
Qed.

(** *** Reserved words *)
Definition reserved_fine (kv : string * string) : bool :=
  match lit (fst kv) with c :: _ => nondelim c | [] => false end &&
  match pick rules (lit (fst kv)) with
  | Some (n, Emit f) => Nat.eqb n (List.length (lit (fst kv))) && match f (lit (fst kv)) with TK v => String.eqb v (snd kv) | _ => false end
  | _ => false
  end.
Lemma reserved_all : forallb reserved_fine reserved = true.
Proof. vm_compute. reflexivity. Qed.
Lemma scan_reserved k v s : In (k, v) reserved -> ends s -> scan (lit k ++ s) = option_map (cons (TK v)) (scan s).
Proof.
  intros H E. pose proof reserved_all as A. rewrite forallb_forall in A. specialize (A _ H). unfold reserved_fine in A. cbn [fst snd] in A. apply andb_true_iff in A. destruct A as [A B].
  destruct (lit k) as [|c w]; [discriminate|]. destruct (pick rules (c :: w)) as [[n [|f| |]]|] eqn:P; try discriminate. apply andb_true_iff in B. destruct B as [B C].
  apply Nat.eqb_eq in B. subst n. rewrite (scan_word c w s f A E P). destruct (f (c :: w)); try discriminate. apply String.eqb_eq in C. subst. auto.
Qed.
Lemma words_reserved k : In k WORDS -> In (k, token_name k) reserved.
Proof.
  intros H. assert (A : forallb (fun k => existsb (fun kv => String.eqb (fst kv) k && String.eqb (snd kv) (token_name k)) reserved) WORDS = true) by (vm_compute; reflexivity).
  rewrite forallb_forall in A. specialize (A k H). apply existsb_exists in A. destruct A as ([a b] & X & Y). cbn [fst snd] in Y. apply andb_true_iff in Y. destruct Y as [Y Z].
  apply String.eqb_eq in Y. apply String.eqb_eq in Z. subst. auto.
Qed.
Lemma reserved_words w : In w (map (fun kv => lit (fst kv)) reserved) -> In w (map lit WORDS).
Proof.
  intros H. apply in_map_iff in H. destruct H as (kv & <- & H). apply in_map. assert (A : forallb (fun kv => existsb (String.eqb (fst kv)) WORDS) reserved = true) by (vm_compute; reflexivity).
  rewrite forallb_forall in A. specialize (A kv H). apply existsb_exists in A. destruct A as (x & X & Y). apply String.eqb_eq in Y. rewrite Y. auto.
Qed.
Lemma word_match k w : matchb (word k) w = true -> w = k.
Proof.
  intros H. apply matchb_lang in H. revert w H. induction k as [|c k IH]; intros w H; cbn [word] in H; inversion H; subst; auto.
  match goal with X : lang (ch c) _ |- _ => inversion X; subst end. match goal with X : is c _ = true |- _ => apply Ascii.eqb_eq in X; subst end. cbn [app]. f_equal. auto.
Qed.
Lemma dead_match c w q b : dead c (q, b) = true -> matchb q (c :: w) = false.
Proof. unfold dead. cbn [fst]. intros H. apply andb_true_iff in H. destruct H as [_ H]. apply is_void_eq in H. unfold matchb. cbn [derivs]. rewrite H, derivs_void. auto. Qed.
Lemma not_reserved c w : ~ In (c :: w) (map (fun kv => lit (fst kv)) reserved) -> c <> ";" -> forall q b, In (q, b) before_blanks -> matchb q (c :: w) = false.
Proof.
  intros N S q b H. unfold before_blanks in H. destruct H as [H|H].
  - injection H as <- <-. unfold matchb. cbn [derivs]. assert (D : deriv c comment = Void). { unfold comment, ch. cbn [deriv nullable]. unfold is at 1. destruct (Ascii.eqb_spec ";" c); [congruence|]. auto. }
    rewrite D, derivs_void. auto.
  - apply in_map_iff in H. destruct H as (kv & E & H). destruct (matchb q (c :: w)) eqn:M; auto. exfalso. assert (q = word (lit (fst kv))) by congruence. subst q.
    apply word_match in M. apply N. apply in_map_iff. exists kv. auto.
Qed.

(** *** Symbols *)
Lemma in_oneof c l : oneof l c = true <-> In c l.
Proof. unfold oneof. rewrite existsb_exists. split; [intros (x & H & E); apply Ascii.eqb_eq in E; subst; auto|intros H; exists c; split; auto; apply Ascii.eqb_refl]. Qed.
Lemma symbolic_eq c : sym_continue c = oneof SYMBOLIC c.
Proof. apply eqb_prop. apply (all_bytes (fun c => Bool.eqb (sym_continue c) (oneof SYMBOLIC c))). vm_compute. reflexivity. Qed.
Lemma digit_eq c : digit c = oneof DIGITS c.
Proof. apply eqb_prop. apply (all_bytes (fun c => Bool.eqb (digit c) (oneof DIGITS c))). vm_compute. reflexivity. Qed.
Lemma incl_sym w : incl w SYMBOLIC -> forallb sym_continue w = true.
Proof. intros H. apply forallb_forall. intros c Hc. rewrite symbolic_eq. apply in_oneof. auto. Qed.
Lemma incl_dig w : incl w DIGITS -> forallb digit w = true.
Proof. intros H. apply forallb_forall. intros c Hc. rewrite digit_eq. apply in_oneof. auto. Qed.
Lemma sym_first c : In c SYMBOLIC -> ~ In c DIGITS -> sym_begin c = true.
Proof.
  intros H N. rewrite <- in_oneof, <- symbolic_eq in H. rewrite <- in_oneof, <- digit_eq in N. unfold sym_continue in H. apply orb_true_iff in H. destruct H; auto; congruence.
Qed.
Lemma symbol_match c w : sym_begin c = true -> forallb sym_continue w = true -> matchb r_symbol (c :: w) = true.
Proof. intros A B. apply matchb_lang. unfold r_symbol. change (c :: w) with ([c] ++ w). constructor; [constructor; auto|apply star_all; auto]. Qed.
Definition numbers := [(newline, Skip); (r_int, Emit INT); (r_double, Emit DOUBLE); (r_double2, Emit DOUBLE); (r_hex, Emit HEXFLOAT)].
Lemma rules_symbol : rules = (before_blanks ++ (blanks, Skip) :: numbers) ++ (r_symbol, Emit SYMBOL) :: ([(r_keyword, Emit KEYWORD); (ch QUOTE, BeginStr); (ch BAR, BeginQuoted)] ++ [dot_rule]).
Proof. reflexivity. Qed.
Lemma sym_nondelim c : sym_begin c = true -> nondelim c = true /\ c <> ";" /\ c <> ":".
Proof.
  intros H. pose proof (all_bytes (fun c => negb (sym_begin c) || (nondelim c && negb (Ascii.eqb c ";") && negb (Ascii.eqb c ":"))) ltac:(vm_compute; reflexivity) c) as A. cbn beta in A. rewrite H in A.
  cbn [negb orb] in A. apply andb_true_iff in A. destruct A as [A C]. apply andb_true_iff in A. destruct A as [A B]. split; auto. split; intros ->; discriminate.
Qed.
Lemma scan_attribute c w s : incl (c :: w) SYMBOLIC -> ~ In c DIGITS -> ends s -> scan ((":" :: c :: w) ++ s) = option_map (cons (KEYWORD (":" :: c :: w))) (scan s).
Proof.
  intros I ND E. assert (B : sym_begin c = true) by (apply sym_first; auto; apply I; left; auto). apply scan_word; auto.
  replace rules with ((before_blanks ++ (blanks, Skip) :: numbers ++ [(r_symbol, Emit SYMBOL)]) ++ (r_keyword, Emit KEYWORD) :: ([(ch QUOTE, BeginStr); (ch BAR, BeginQuoted)] ++ [dot_rule])) by reflexivity.
  apply pick_full.
  - apply matchb_lang. unfold r_keyword, ch. change (":" :: c :: w) with ([":"] ++ (c :: w)). constructor; [constructor; reflexivity|]. apply matchb_lang, symbol_match; auto. apply incl_sym. intros x Hx. apply I. right. auto.
  - intros q b H. eapply dead_match. assert (A : forallb (dead ":") (before_blanks ++ (blanks, Skip) :: numbers ++ [(r_symbol, Emit SYMBOL)]) = true) by (vm_compute; reflexivity). rewrite forallb_forall in A. apply (A _ H).
Qed.

(** *** Numbers *)
Definition starts_number (w : text) : bool :=
  let point w := match w with c :: w' => digit c || (is "." c && match w' with d :: _ => digit d | [] => false end) | [] => false end in
  point w || match w with c :: w' => oneof ["-"; "+"] c && point w' | [] => false end.
Lemma reserved_no_number : forallb (fun kv => negb (starts_number (lit (fst kv)))) reserved = true.
Proof. vm_compute. reflexivity. Qed.
Lemma number_not_reserved w : starts_number w = true -> ~ In w (map (fun kv => lit (fst kv)) reserved).
Proof. intros H X. apply in_map_iff in X. destruct X as (kv & <- & X). pose proof reserved_no_number as A. rewrite forallb_forall in A. specialize (A _ X). cbn beta in A. rewrite H in A. discriminate. Qed.
Lemma number_first c w : starts_number (c :: w) = true -> nondelim c = true /\ c <> ";" /\ forallb (dead c) [(blanks, Skip); (newline, Skip)] = true.
Proof.
  intros H. pose proof (all_bytes (fun c => negb (digit c || is "." c || oneof ["-"; "+"] c) || (nondelim c && negb (Ascii.eqb c ";") && forallb (dead c) [(blanks, Skip); (newline, Skip)])) ltac:(vm_compute; reflexivity) c) as A.
  cbn beta in A. assert (X : digit c || is "." c || oneof ["-"; "+"] c = true).
  { unfold starts_number in H. rewrite !orb_true_iff, !andb_true_iff in H. rewrite !orb_true_iff. tauto. }
  rewrite X in A. cbn [negb orb] in A. apply andb_true_iff in A. destruct A as [A C]. apply andb_true_iff in A. destruct A as [A B]. split; auto. split; auto. intros ->. discriminate.
Qed.
Lemma before_number c w q b : starts_number (c :: w) = true -> In (q, b) (before_blanks ++ [(blanks, Skip); (newline, Skip)]) -> matchb q (c :: w) = false.
Proof.
  intros H X. destruct (number_first c w H) as (A & B & C). apply in_app_or in X. destruct X as [X|X].
  - eapply not_reserved; eauto. apply number_not_reserved; auto.
  - rewrite forallb_forall in C. eapply dead_match. apply (C _ X).
Qed.
Lemma sign_lang sg : In sg signs -> lang sign sg.
Proof.
  unfold sign, opt. intros [<-|[<-|[<-|[]]]]; [apply L_altl; constructor| |]; apply L_altr; apply (L_cls (oneof ["-"; "+"])); reflexivity.
Qed.
Lemma digits_lang c w : forallb digit (c :: w) = true -> lang digits (c :: w).
Proof. intros H. cbn [forallb] in H. apply andb_true_iff in H. unfold digits, plus. change (c :: w) with ([c] ++ w). constructor; [constructor; tauto|apply star_all; tauto]. Qed.
Lemma exponent_lang ex : exponent_ok ex -> lang exponent ex.
Proof.
  unfold exponent, opt. intros [->|(e & sg & es & -> & H & S & I & N)]; [apply L_altl; constructor|]. apply L_altr. change (e :: sg ++ es) with ([e] ++ (sg ++ es)). constructor; [constructor; apply in_oneof; auto|].
  constructor; [apply sign_lang; auto|]. destruct es; [congruence|]. apply digits_lang, incl_dig. auto.
Qed.
Lemma lit_app a b : lit (String.append a b) = lit a ++ lit b.
Proof. induction a as [|c a IH]; cbn; [auto|]. f_equal. apply IH. Qed.
Definition dtext (ds : list SpecLiteral.dig) : text := lit (SpecLiteral.show_digits ds).
Lemma dtext_cons d ds : dtext (d :: ds) = SpecLiteral.dshow d :: dtext ds.
Proof. reflexivity. Qed.
Lemma dtext_digits ds : forallb digit (dtext ds) = true.
Proof. induction ds as [|d ds IH]; auto. rewrite dtext_cons. cbn [forallb]. rewrite IH. destruct d; reflexivity. Qed.
Lemma dtext_incl ds : incl (dtext ds) DIGITS.
Proof. intros c Hc. pose proof (dtext_digits ds) as A. rewrite forallb_forall in A. apply in_oneof. rewrite <- digit_eq. auto. Qed.
Definition ftext (f : option (list SpecLiteral.dig)) : text := match f with None => [] | Some ds => "." :: dtext ds end.
Definition etext (e : option (bool * SpecLiteral.sgn * list SpecLiteral.dig)) : text :=
  match e with None => [] | Some (u, s, ds) => (if u then "E" else "e") :: lit (SpecLiteral.show_sign s) ++ dtext ds end.
Lemma show_text t : lit (SpecLiteral.show t) = lit (SpecLiteral.show_sign (SpecLiteral.n_sign t)) ++ dtext (SpecLiteral.n_int t) ++ ftext (SpecLiteral.n_frac t) ++ etext (SpecLiteral.n_exp t).
Proof.
  unfold SpecLiteral.show. rewrite !lit_app. f_equal. f_equal. f_equal; [destruct (SpecLiteral.n_frac t); reflexivity|].
  destruct (SpecLiteral.n_exp t) as [[[u s] ds]|]; auto. rewrite !lit_app. destruct u; reflexivity.
Qed.
Lemma sign_in s : In (lit (SpecLiteral.show_sign s)) signs.
Proof. destruct s; cbn; tauto. Qed.
Lemma etext_ok t : SpecLiteral.well_formed t -> exponent_ok (etext (SpecLiteral.n_exp t)).
Proof.
  intros [_ W]. destruct (SpecLiteral.n_exp t) as [[[u s] ds]|]; [|left; reflexivity]. right. exists (if u then "E" else "e"), (lit (SpecLiteral.show_sign s)), (dtext ds).
  split; [reflexivity|]. split; [destruct u; cbn; tauto|]. split; [apply sign_in|]. split; [apply dtext_incl|]. destruct ds; [congruence|discriminate].
Qed.
Lemma show_starts t : SpecLiteral.well_formed t -> starts_number (lit (SpecLiteral.show t)) = true.
Proof.
  intros [W _]. rewrite show_text. destruct (SpecLiteral.n_sign t), (SpecLiteral.n_int t) as [|d ds]; cbn [SpecLiteral.show_sign lit list_ascii_of_string app].
  all: try (rewrite dtext_cons; destruct d; reflexivity).
  all: destruct (SpecLiteral.n_frac t) as [[|f fs]|]; try (exfalso; tauto); cbn [ftext]; rewrite dtext_cons; destruct f; reflexivity.
Qed.
(** A number that is not whole does not match the rule for integers. *)
Lemma not_int t : SpecLiteral.well_formed t -> whole t = false -> matchb r_int (lit (SpecLiteral.show t)) = false.
Proof.
  intros [W _] H. rewrite show_text. unfold whole in H. destruct (SpecLiteral.n_frac t) as [fs|].
  - apply (avoids_match "."); [vm_compute; reflexivity|]. apply in_or_app. right. apply in_or_app. right. left. auto.
  - destruct (SpecLiteral.n_exp t) as [[[u s] es]|].
    + assert (I : In (if u then "E" else "e") (lit (SpecLiteral.show_sign (SpecLiteral.n_sign t)) ++ dtext (SpecLiteral.n_int t) ++ ftext None ++ etext (Some (u, s, es)))).
      { apply in_or_app. right. apply in_or_app. right. left. auto. }
      destruct u; [apply (avoids_match "E")|apply (avoids_match "e")]; auto; vm_compute; reflexivity.
    + destruct (SpecLiteral.n_int t) as [|d [|d' ds]]; [congruence|discriminate|]. destruct d; try discriminate. rewrite !dtext_cons. unfold matchb.
      destruct (SpecLiteral.n_sign t), d'; cbn [SpecLiteral.show_sign lit list_ascii_of_string app SpecLiteral.dshow derivs];
      match goal with |- nullable (derivs ?w ?r) = false => replace r with Void by (vm_compute; reflexivity); rewrite derivs_void; reflexivity end.
Qed.
Lemma ends_digit a x : lang (Seq a digits) x -> exists y c, x = y ++ [c] /\ digit c = true.
Proof.
  intros H. destruct (seq_inv _ _ _ H) as (s & t & -> & _ & B). unfold digits, plus in B. destruct (seq_inv _ _ _ B) as (u & v & -> & C & D). destruct (cls_inv _ _ C) as (c & -> & Hc). apply star_inv in D.
  destruct v as [|d v] using rev_ind; [exists s, c; auto|]. exists (s ++ [c] ++ v), d. rewrite <- !app_assoc. split; auto. rewrite forallb_app in D. apply andb_true_iff in D. destruct D as [_ D]. cbn in D. apply andb_true_iff in D. tauto.
Qed.
Lemma not_double w : matchb r_double (w ++ ["."]) = false.
Proof.
  destruct (matchb r_double (w ++ ["."])) eqn:E; auto. exfalso. apply matchb_lang in E. unfold r_double in E. destruct (seq_inv _ _ _ E) as (sg & x & Ex & _ & X). destruct (seq_inv _ _ _ X) as (bo & ex & -> & B & D).
  assert (L : forall p y c, w ++ ["."] = p ++ y ++ [c] -> digit c = true -> False).
  { intros p y c Q Hc. rewrite app_assoc in Q. apply app_inj_tail in Q. destruct Q as [_ <-]. discriminate Hc. }
  assert (F : exists y c, bo = y ++ [c] /\ digit c = true).
  { inversion B as [| | |a b s Y|a b s Y| |]; subst.
    - apply (ends_digit Eps). apply (L_seq Eps digits [] bo); [constructor|auto].
    - destruct (seq_inv _ _ _ Y) as (y1 & y2 & -> & _ & Y2). destruct (ends_digit _ _ Y2) as (y & c & -> & Hc). exists (y1 ++ y), c. rewrite app_assoc. auto. }
  unfold exponent, opt in D. inversion D as [| | |a b s Y|a b s Y| |]; subst.
  - inversion Y; subst. rewrite app_nil_r in Ex. destruct F as (y & c & -> & Hc). eapply L; eauto.
  - destruct (seq_inv _ _ _ Y) as (y1 & y2 & -> & _ & Y2). destruct (ends_digit _ _ Y2) as (y & c & -> & Hc). apply (L (sg ++ bo ++ y1) y c); auto. rewrite Ex, <- !app_assoc. auto.
Qed.
Lemma whole_lang t : SpecLiteral.well_formed t -> whole t = true -> lang r_int (lit (SpecLiteral.show t)).
Proof.
  intros _ H. rewrite show_text. unfold whole in H. destruct (SpecLiteral.n_frac t); [discriminate|]. destruct (SpecLiteral.n_exp t); [discriminate|]. cbn [ftext etext app]. rewrite app_nil_r. unfold r_int.
  constructor; [apply sign_lang, sign_in|]. destruct (SpecLiteral.n_int t) as [|d ds]; [discriminate|]. rewrite dtext_cons.
  assert (C : d = SpecLiteral.D0 /\ ds = [] \/ between "1" "9" (SpecLiteral.dshow d) = true) by (destruct d; auto; destruct ds; [left; auto|discriminate]).
  destruct C as [[-> ->]|C]; [apply L_altl; constructor; reflexivity|]. apply L_altr. change (SpecLiteral.dshow d :: dtext ds) with ([SpecLiteral.dshow d] ++ dtext ds). constructor; [constructor; auto|apply star_all, dtext_digits].
Qed.
Lemma dtext_lang ds : ds <> [] -> lang digits (dtext ds).
Proof. intros N. destruct ds as [|d ds]; [congruence|]. rewrite dtext_cons. apply digits_lang. rewrite <- dtext_cons. apply dtext_digits. Qed.
Lemma double_lang t : SpecLiteral.well_formed t -> SpecLiteral.n_frac t <> Some [] -> lang r_double (lit (SpecLiteral.show t)).
Proof.
  intros W N. pose proof (etext_ok t W) as X. destruct W as [W _]. rewrite show_text. unfold r_double. constructor; [apply sign_lang, sign_in|]. rewrite app_assoc. constructor; [|apply exponent_lang; auto].
  destruct (SpecLiteral.n_frac t) as [fs|]; cbn [ftext].
  - apply L_altr. constructor; [apply star_all, dtext_digits|]. change ("." :: dtext fs) with (["."] ++ dtext fs). constructor; [apply L_altr; constructor; reflexivity|]. apply dtext_lang. intros ->. congruence.
  - rewrite app_nil_r. apply L_altl. apply dtext_lang. auto.
Qed.
Lemma scan_number t s : SpecLiteral.well_formed t -> ends s -> scan (lit (SpecLiteral.show t) ++ s) = option_map (cons (token_of (Number t))) (scan s).
Proof.
  intros W E. pose proof (show_starts t W) as SN. pose proof (whole_lang t W) as WL. pose proof (not_int t W) as NI. pose proof (double_lang t W) as DL.
  assert (DP : SpecLiteral.n_frac t = Some [] -> exists sg ds, In sg signs /\ lang digits ds /\ lit (SpecLiteral.show t) = (sg ++ ds) ++ ["."] /\ whole t = false).
  { intros F. destruct W as [W _]. rewrite F in W. destruct W as [W X]. exists (lit (SpecLiteral.show_sign (SpecLiteral.n_sign t))), (dtext (SpecLiteral.n_int t)). split; [apply sign_in|]. split; [apply dtext_lang; auto|].
    split; [rewrite show_text, F, X; cbn; rewrite <- app_assoc; auto|]. unfold whole. rewrite F. auto. }
  cbn [token_of]. destruct (lit (SpecLiteral.show t)) as [|x w]; [discriminate|]. destruct (number_first x w SN) as [D _]. destruct (whole t).
  - apply scan_word; auto. replace rules with ((before_blanks ++ [(blanks, Skip); (newline, Skip)]) ++ (r_int, Emit INT) :: (skipn 2 after_blanks ++ [dot_rule])) by reflexivity.
    apply pick_full; [|intros; eapply before_number; eauto]. apply matchb_lang. auto.
  - specialize (NI eq_refl). apply scan_word; auto. assert (C : SpecLiteral.n_frac t = Some [] \/ SpecLiteral.n_frac t <> Some []) by (destruct (SpecLiteral.n_frac t) as [[|? ?]|]; auto; right; discriminate). destruct C as [C|C].
    + destruct (DP C) as (sg & ds & S & L & Q & _).
      replace rules with ((before_blanks ++ [(blanks, Skip); (newline, Skip)] ++ [(r_int, Emit INT); (r_double, Emit DOUBLE)]) ++ (r_double2, Emit DOUBLE) :: (skipn 4 after_blanks ++ [dot_rule])) by reflexivity. apply pick_full.
      * apply matchb_lang. rewrite Q, <- app_assoc. unfold r_double2. constructor; [apply sign_lang; auto|]. apply L_altr. constructor; auto. constructor. reflexivity.
      * intros q b H. rewrite app_assoc in H. apply in_app_or in H. destruct H as [H|[H|[H|[]]]]; [eapply before_number; eauto| |].
        -- assert (q = r_int) by congruence. subst q. auto.
        -- assert (q = r_double) by congruence. subst q. rewrite Q. apply not_double.
    + replace rules with ((before_blanks ++ [(blanks, Skip); (newline, Skip)] ++ [(r_int, Emit INT)]) ++ (r_double, Emit DOUBLE) :: (skipn 3 after_blanks ++ [dot_rule])) by reflexivity. apply pick_full.
      * apply matchb_lang. auto.
      * intros q b H. rewrite app_assoc in H. apply in_app_or in H. destruct H as [H|[H|[]]]; [eapply before_number; eauto|]. assert (q = r_int) by congruence. subst q. auto.
Qed.
(** [whole] is what C51 calls integral. *)
Lemma whole_integral t : whole t = true <-> SpecLiteral.integral t.
Proof.
  unfold whole, SpecLiteral.integral. destruct (SpecLiteral.n_frac t); [split; [discriminate|intros (H & _); discriminate]|]. destruct (SpecLiteral.n_exp t); [split; [discriminate|intros (_ & H & _); discriminate]|].
  destruct (SpecLiteral.n_int t) as [|d [|d' ds]]; [split; [discriminate|intros (_ & _ & [])]|tauto|].
  split; [intros H; split; auto; split; auto; intros ->; discriminate|]. intros (_ & _ & H). destruct d; auto; congruence.
Qed.
Lemma scan_nil : scan [] = Some [].
Proof. reflexivity. Qed.
Lemma scan_one_number t : SpecLiteral.well_formed t ->
  (SpecLiteral.integral t -> scan (lit (SpecLiteral.show t)) = Some [INT (lit (SpecLiteral.show t))]) /\
  (~ SpecLiteral.integral t -> scan (lit (SpecLiteral.show t)) = Some [DOUBLE (lit (SpecLiteral.show t))]).
Proof.
  intros W. pose proof (scan_number t [] W) as A. rewrite app_nil_r, scan_nil in A. cbn [token_of option_map] in A. pose proof (whole_integral t) as B.
  split; intros H; rewrite A by exact I; destruct (whole t); auto; exfalso; [apply proj2 in B; specialize (B H); discriminate|apply H, B; auto].
Qed.

(** *** Hexadecimal numbers *)
Lemma hex_eq c : hex c = oneof HEX c.
Proof. apply eqb_prop. apply (all_bytes (fun c => Bool.eqb (hex c) (oneof HEX c))). vm_compute. reflexivity. Qed.
Lemma incl_hex w : incl w HEX -> forallb hex w = true.
Proof. intros H. apply forallb_forall. intros c Hc. rewrite hex_eq. apply in_oneof. auto. Qed.
Lemma plus_all q w : w <> [] -> forallb q w = true -> lang (plus (Cls q)) w.
Proof. intros N H. destruct w as [|c w]; [congruence|]. cbn [forallb] in H. apply andb_true_iff in H. unfold plus. change (c :: w) with ([c] ++ w). constructor; [constructor; tauto|apply star_all; tauto]. Qed.
Lemma hex_lang sg x hs f ex : hex_ok sg x hs f ex -> lang r_hex (show_hex sg x hs f ex).
Proof.
  intros (S & X & H & F & E). unfold show_hex, r_hex. constructor; [apply sign_lang; auto|]. change ("0" :: x :: ?a) with (["0"] ++ [x] ++ a). constructor; [constructor; reflexivity|]. constructor; [constructor; apply in_oneof; auto|].
  rewrite app_assoc. constructor.
  - destruct f as [fs|]; [|rewrite app_nil_r; apply L_altl; rewrite <- (app_nil_r hs); constructor; [apply plus_all; auto; apply incl_hex; auto|apply L_altl; constructor]].
    destruct F as [F N]. destruct fs as [|c fs].
    + apply L_altl. constructor; [apply plus_all; [destruct N; auto|apply incl_hex; auto]|]. apply L_altr. constructor. reflexivity.
    + apply L_altr. constructor; [apply star_all, incl_hex; auto|]. change ("." :: c :: fs) with (["."] ++ c :: fs). constructor; [constructor; reflexivity|]. apply plus_all; [discriminate|apply incl_hex; auto].
  - unfold opt. destruct E as [->|(p & sg' & es & -> & P & S' & I & N)]; [apply L_altl; constructor|]. apply L_altr. change (p :: sg' ++ es) with ([p] ++ (sg' ++ es)). constructor; [constructor; apply in_oneof; auto|].
    constructor; [apply sign_lang; auto|]. apply plus_all; auto. apply incl_dig. auto.
Qed.
Lemma scan_hex sg x hs f ex s : hex_ok sg x hs f ex -> ends s -> scan (show_hex sg x hs f ex ++ s) = option_map (cons (HEXFLOAT (show_hex sg x hs f ex))) (scan s).
Proof.
  intros K E. pose proof (hex_lang sg x hs f ex K) as L. destruct K as (S & X & _).
  assert (SN : starts_number (show_hex sg x hs f ex) = true) by (unfold show_hex; destruct S as [<-|[<-|[<-|[]]]]; reflexivity).
  assert (IX : In x (show_hex sg x hs f ex)) by (unfold show_hex; apply in_or_app; right; right; left; auto).
  destruct (show_hex sg x hs f ex) as [|c w]; [discriminate|]. destruct (number_first c w SN) as [D _]. apply scan_word; auto.
  replace rules with ((before_blanks ++ [(blanks, Skip); (newline, Skip)] ++ [(r_int, Emit INT); (r_double, Emit DOUBLE); (r_double2, Emit DOUBLE)]) ++ (r_hex, Emit HEXFLOAT) :: (skipn 5 after_blanks ++ [dot_rule])) by reflexivity.
  apply pick_full; [apply matchb_lang; auto|]. intros q b H. rewrite app_assoc in H. apply in_app_or in H. destruct H as [H|H]; [eapply before_number; eauto|]. apply (avoids_match x); auto.
  assert (A : forallb (fun x => forallb (fun ra => avoids x (fst ra)) [(r_int, Emit INT); (r_double, Emit DOUBLE); (r_double2, Emit DOUBLE)]) ["x"; "X"] = true) by (vm_compute; reflexivity).
  rewrite forallb_forall in A. specialize (A x X). rewrite forallb_forall in A. exact (A _ H).
Qed.

(** *** What matches a number rule is a number *)
Lemma dtext_app a b : dtext (a ++ b) = dtext a ++ dtext b.
Proof. induction a as [|d a IH]; auto. cbn [app]. rewrite !dtext_cons, IH. auto. Qed.
Lemma digit_show c : digit c = true -> exists d, SpecLiteral.dshow d = c.
Proof.
  intros H. rewrite digit_eq in H. apply in_oneof in H. cbn in H.
  repeat (destruct H as [<-|H]; [first [exists SpecLiteral.D0; reflexivity|exists SpecLiteral.D1; reflexivity|exists SpecLiteral.D2; reflexivity|exists SpecLiteral.D3; reflexivity|exists SpecLiteral.D4; reflexivity
    |exists SpecLiteral.D5; reflexivity|exists SpecLiteral.D6; reflexivity|exists SpecLiteral.D7; reflexivity|exists SpecLiteral.D8; reflexivity|exists SpecLiteral.D9; reflexivity]|]). destruct H.
Qed.
Lemma all_digits x : forallb digit x = true -> exists ds, dtext ds = x.
Proof.
  induction x as [|c x IH]; intros H; [exists []; auto|]. cbn [forallb] in H. apply andb_true_iff in H. destruct H as [H1 H2]. destruct (IH H2) as [ds <-]. destruct (digit_show c H1) as [d <-].
  exists (d :: ds). apply dtext_cons.
Qed.
Lemma digits_inv x : lang digits x -> exists ds, ds <> [] /\ dtext ds = x.
Proof.
  unfold digits, plus. intros H. destruct (seq_inv _ _ _ H) as (a & b & -> & A & B). destruct (cls_inv _ _ A) as (c & -> & Hc). apply star_inv in B. destruct (all_digits b B) as [ds <-]. destruct (digit_show c Hc) as [d <-].
  exists (d :: ds). split; [discriminate|]. apply dtext_cons.
Qed.
Lemma sign_inv x : lang sign x -> exists s, lit (SpecLiteral.show_sign s) = x.
Proof.
  unfold sign, opt. intros H. inversion H as [| | |a b s Y|a b s Y| |]; subst.
  - inversion Y; subst. exists SpecLiteral.NoSign. auto.
  - destruct (cls_inv _ _ Y) as (c & -> & Hc). apply in_oneof in Hc. destruct Hc as [<-|[<-|[]]]; [exists SpecLiteral.Minus|exists SpecLiteral.Plus]; auto.
Qed.
Lemma exponent_inv x : lang exponent x -> exists e, etext e = x /\ match e with None => True | Some (_, _, ds) => ds <> [] end.
Proof.
  unfold exponent, opt. intros H. inversion H as [| | |a b s Y|a b s Y| |]; subst.
  - inversion Y; subst. exists None. auto.
  - destruct (seq_inv _ _ _ Y) as (u & v & -> & U & V). destruct (seq_inv _ _ _ V) as (g & z & -> & G & Z). destruct (cls_inv _ _ U) as (c & -> & Hc). destruct (sign_inv g G) as [s <-]. destruct (digits_inv z Z) as (ds & N & <-).
    apply in_oneof in Hc. destruct Hc as [<-|[<-|[]]]; [exists (Some (false, s, ds))|exists (Some (true, s, ds))]; auto.
Qed.
Definition numeric (x : text) : Prop := exists t, SpecLiteral.well_formed t /\ lit (SpecLiteral.show t) = x.
Lemma numeric_make s i f e : (match f with None => i <> [] | Some [] => i <> [] /\ e = None | Some _ => True end) -> match e with None => True | Some (_, _, ds) => ds <> [] end ->
  numeric (lit (SpecLiteral.show_sign s) ++ dtext i ++ ftext f ++ etext e).
Proof. intros A B. exists (SpecLiteral.Build_numeral s i f e). split; [split; assumption|]. apply show_text. Qed.
Lemma int_numeric x : lang r_int x -> numeric x.
Proof.
  unfold r_int. intros H. destruct (seq_inv _ _ _ H) as (a & b & -> & A & B). destruct (sign_inv a A) as [s <-].
  assert (D : lang digits b).
  { inversion B as [| | |p q r Y|p q r Y| |]; subst.
    - destruct (cls_inv _ _ Y) as (c & -> & Hc). apply Ascii.eqb_eq in Hc. subst. apply digits_lang. reflexivity.
    - destruct (seq_inv _ _ _ Y) as (u & v & -> & U & V). destruct (cls_inv _ _ U) as (c & -> & Hc). apply star_inv in V. apply digits_lang. cbn [forallb]. rewrite V, andb_true_r.
      pose proof (all_bytes (fun c => negb (between "1" "9" c) || digit c) ltac:(vm_compute; reflexivity) c) as X. cbn beta in X. rewrite Hc in X. exact X. }
  destruct (digits_inv b D) as (ds & N & <-). rewrite <- (app_nil_r (dtext ds)). apply (numeric_make s ds None None); auto.
Qed.
Lemma double_numeric x : lang r_double x -> numeric x.
Proof.
  unfold r_double. intros H. destruct (seq_inv _ _ _ H) as (a & b & -> & A & B). destruct (sign_inv a A) as [s <-]. destruct (seq_inv _ _ _ B) as (bo & ex & -> & C & D). destruct (exponent_inv ex D) as (e & <- & E).
  inversion C as [| | |p q r Y|p q r Y| |]; subst.
  - destruct (digits_inv bo Y) as (ds & N & <-). apply (numeric_make s ds None e); auto.
  - destruct (seq_inv _ _ _ Y) as (u & v & -> & U & V). apply star_inv in U. destruct (all_digits u U) as [ds <-]. destruct (seq_inv _ _ _ V) as (o & z & -> & O & Z). destruct (digits_inv z Z) as (fs & N & <-).
    unfold opt in O. inversion O as [| | |p q r W|p q r W| |]; subst.
    + inversion W; subst. cbn [app]. rewrite <- dtext_app. apply (numeric_make s (ds ++ fs) None e); auto. intros X. apply app_eq_nil in X. tauto.
    + destruct (cls_inv _ _ W) as (c & -> & Hc). apply Ascii.eqb_eq in Hc. subst. rewrite <- app_assoc. apply (numeric_make s ds (Some fs) e); auto. destruct fs; [congruence|auto].
Qed.
Lemma double2_numeric x : lang r_double2 x -> numeric x.
Proof.
  unfold r_double2. intros H. destruct (seq_inv _ _ _ H) as (a & b & -> & A & B). destruct (sign_inv a A) as [s <-]. inversion B as [| | |p q r Y|p q r Y| |]; subst.
  - destruct (digits_inv b Y) as (ds & N & <-). rewrite <- (app_nil_r (dtext ds)). apply (numeric_make s ds None None); auto.
  - destruct (seq_inv _ _ _ Y) as (u & v & -> & U & V). destruct (digits_inv u U) as (ds & N & <-). destruct (cls_inv _ _ V) as (c & -> & Hc). apply Ascii.eqb_eq in Hc. subst. apply (numeric_make s ds (Some []) None); auto.
Qed.
Lemma hex_inv y : lang r_hex y -> exists sg x hs f ex, hex_ok sg x hs f ex /\ show_hex sg x hs f ex = y.
Proof.
  assert (HI : forall w, forallb hex w = true -> incl w HEX).
  { intros w H c Hc. rewrite forallb_forall in H. apply in_oneof. rewrite <- hex_eq. auto. }
  assert (SI : forall z, lang sign z -> In z signs) by (intros z Z; destruct (sign_inv z Z) as [g <-]; apply sign_in).
  assert (PI : forall z, lang (plus (Cls hex)) z -> z <> [] /\ incl z HEX).
  { intros z Z. unfold plus in Z. destruct (seq_inv _ _ _ Z) as (u & v & -> & U & V). destruct (cls_inv _ _ U) as (c & -> & Hc). apply star_inv in V. split; [discriminate|]. apply HI. cbn [app forallb]. rewrite Hc, V. auto. }
  unfold r_hex. intros H. destruct (seq_inv _ _ _ H) as (sg & y1 & -> & S & H1). destruct (seq_inv _ _ _ H1) as (z0 & y2 & -> & Z & H2). destruct (seq_inv _ _ _ H2) as (xx & y3 & -> & X & H3). destruct (seq_inv _ _ _ H3) as (bo & ex & -> & B & E).
  destruct (cls_inv _ _ Z) as (c & -> & Hc). apply Ascii.eqb_eq in Hc. subst c. destruct (cls_inv _ _ X) as (x & -> & Hx). apply in_oneof in Hx. apply SI in S.
  assert (EX : ex = [] \/ exists p sg' es, ex = p :: sg' ++ es /\ In p ["p"; "P"] /\ In sg' signs /\ incl es DIGITS /\ es <> []).
  { unfold opt in E. inversion E as [| | |a b s Y|a b s Y| |]; subst; [inversion Y; auto|]. right. destruct (seq_inv _ _ _ Y) as (u & v & -> & U & V). destruct (seq_inv _ _ _ V) as (g & es & -> & G & D). destruct (cls_inv _ _ U) as (p & -> & Hp). apply in_oneof in Hp.
    destruct (digits_inv es D) as (ds & N & <-). exists p, g, (dtext ds). split; auto. split; auto. split; auto. split; [apply dtext_incl|]. destruct ds; [congruence|discriminate]. }
  inversion B as [| | |a b s Y|a b s Y| |]; subst.
  - destruct (seq_inv _ _ _ Y) as (hs & o & -> & P & O). destruct (PI hs P) as [N I]. unfold opt in O. inversion O as [| | |a b s W|a b s W| |]; subst.
    + inversion W; subst. exists sg, x, hs, None, ex. split; [repeat split; auto|]. unfold show_hex. rewrite app_nil_r. reflexivity.
    + destruct (cls_inv _ _ W) as (c & -> & Hc). apply Ascii.eqb_eq in Hc. subst c. exists sg, x, hs, (Some []), ex. split; [repeat split; auto; intros ? []|]. unfold show_hex. rewrite <- app_assoc. reflexivity.
  - destruct (seq_inv _ _ _ Y) as (hs & o & -> & P & O). apply star_inv in P. destruct (seq_inv _ _ _ O) as (d & fs & -> & D & F). destruct (cls_inv _ _ D) as (c & -> & Hc). apply Ascii.eqb_eq in Hc. subst c. destruct (PI fs F) as [N I].
    exists sg, x, hs, (Some fs), ex. split; [repeat split; auto|]. unfold show_hex. rewrite <- app_assoc. reflexivity.
Qed.
Lemma hex_starts sg x hs f ex : hex_ok sg x hs f ex -> starts_number (show_hex sg x hs f ex) = true.
Proof. intros (S & _). unfold show_hex. destruct S as [<-|[<-|[<-|[]]]]; reflexivity. Qed.
Lemma number_starts w : is_number w -> starts_number w = true.
Proof. intros [(t & W & <-)|(sg & x & hs & f & ex & K & <-)]; [apply show_starts|apply hex_starts]; auto. Qed.
Lemma scan_symbol c w s : symbol_ok c w -> ends s -> scan ((c :: w) ++ s) = option_map (cons (SYMBOL (c :: w))) (scan s).
Proof.
  intros (I & ND & NR & NN) E. assert (B : sym_begin c = true) by (apply sym_first; auto; apply I; left; auto). destruct (sym_nondelim c B) as (D & S & _).
  assert (N : forall r, (forall x, lang r x -> is_number x) -> matchb r (c :: w) = false).
  { intros r Hr. destruct (matchb r (c :: w)) eqn:M; auto. apply matchb_lang in M. exfalso. auto. }
  assert (BL : forallb (dead c) [(blanks, Skip); (newline, Skip)] = true).
  { pose proof (all_bytes (fun c => negb (sym_begin c) || forallb (dead c) [(blanks, Skip); (newline, Skip)]) ltac:(vm_compute; reflexivity) c) as A. cbn beta in A. rewrite B in A. exact A. }
  rewrite forallb_forall in BL. apply scan_word; auto. rewrite rules_symbol. apply pick_full.
  - apply symbol_match; auto. apply incl_sym. intros x Hx. apply I. right. auto.
  - intros q b H. apply in_app_or in H. destruct H as [H|H]; [eapply not_reserved; eauto; intros X; apply NR, reserved_words; auto|]. unfold numbers in H. destruct H as [H|[H|[H|[H|[H|[H|[]]]]]]].
    1, 2: eapply dead_match; apply BL; rewrite <- H; cbn [In]; auto.
    + assert (q = r_int) by congruence. subst q. apply N. intros x X. left. apply int_numeric; auto.
    + assert (q = r_double) by congruence. subst q. apply N. intros x X. left. apply double_numeric; auto.
    + assert (q = r_double2) by congruence. subst q. apply N. intros x X. left. apply double2_numeric; auto.
    + assert (q = r_hex) by congruence. subst q. apply N. intros x X. right. apply hex_inv; auto.
Qed.

(** *** Parentheses, strings, quoted symbols *)
Lemma pick_only_dot c s : forallb (dead c) (before_blanks ++ (blanks, Skip) :: after_blanks) = true -> dot c = true -> pick rules (c :: s) = Some (1, snd dot_rule).
Proof. intros H D. replace rules with ((before_blanks ++ (blanks, Skip) :: after_blanks) ++ [dot_rule]) by reflexivity. rewrite pick_dead by auto. apply pick_dot; auto. Qed.
Lemma scan_paren c s : c = "(" \/ c = ")" -> scan (c :: s) = option_map (cons (CHAR c)) (scan s).
Proof. intros H. rewrite (scan_pick (c :: s) 1 (snd dot_rule)); [reflexivity|]. apply pick_only_dot; destruct H as [->| ->]; vm_compute; reflexivity. Qed.
Lemma longest_ch c s : longest (ch c) (c :: s) = Some 1.
Proof. unfold longest, ch. cbn [longest_from nullable deriv]. unfold is. rewrite Ascii.eqb_refl. apply longest_eps. Qed.
Lemma pick_quote s : pick rules (QUOTE :: s) = Some (1, BeginStr).
Proof.
  replace rules with ((before_blanks ++ (blanks, Skip) :: numbers ++ [(r_symbol, Emit SYMBOL); (r_keyword, Emit KEYWORD)]) ++ (ch QUOTE, BeginStr) :: ([(ch BAR, BeginQuoted)] ++ [dot_rule])) by reflexivity.
  rewrite pick_dead by (vm_compute; reflexivity). cbn [pick]. rewrite longest_ch. rewrite pick_dead by (vm_compute; reflexivity). rewrite pick_dot by reflexivity. auto.
Qed.
Lemma pick_bar s : pick rules (BAR :: s) = Some (1, BeginQuoted).
Proof.
  replace rules with ((before_blanks ++ (blanks, Skip) :: numbers ++ [(r_symbol, Emit SYMBOL); (r_keyword, Emit KEYWORD); (ch QUOTE, BeginStr)]) ++ (ch BAR, BeginQuoted) :: ([] ++ [dot_rule])) by reflexivity.
  rewrite pick_dead by (vm_compute; reflexivity). cbn [app]. apply (pick_first _ _ _ _ _ 1 (snd dot_rule)); [apply longest_ch|apply pick_dot; reflexivity|lia].
Qed.
Lemma in_str_escape t : forall acc s, match s with QUOTE' :: _ => QUOTE' <> QUOTE | [] => True end -> in_str acc (escape t ++ QUOTE :: s) = Some (rev acc ++ escape t ++ [QUOTE], s).
Proof.
  induction t as [|c t IH]; intros acc s H; cbn [escape app in_str].
  - change (is QUOTE QUOTE) with true. cbn iota. destruct s as [|d s]; [cbn [rev]; auto|]. unfold is. destruct (Ascii.eqb_spec QUOTE d); [congruence|]. cbn [rev]. auto.
  - destruct (Ascii.eqb_spec QUOTE c) as [<-|N]; cbn [app in_str].
    + change (is QUOTE QUOTE) with true. cbn iota. rewrite IH by auto. cbn [rev]. rewrite <- !app_assoc. auto.
    + unfold is at 1. destruct (Ascii.eqb_spec QUOTE c); [congruence|]. rewrite IH by auto. cbn [rev]. rewrite <- !app_assoc. auto.
Qed.
Lemma in_quoted_plain t : forall acc s, ~ In BAR t -> ~ In BSL t -> in_quoted acc (t ++ BAR :: s) = Some (rev acc ++ t ++ [BAR], s).
Proof.
  induction t as [|c t IH]; intros acc s A B; cbn [app in_quoted].
  - change (is BAR BAR) with true. cbn iota. cbn [rev]. auto.
  - unfold is. destruct (Ascii.eqb_spec BAR c) as [<-|_]; [exfalso; apply A; left; auto|]. destruct (Ascii.eqb_spec BSL c) as [<-|_]; [exfalso; apply B; left; auto|].
    rewrite IH; [cbn [rev]; rewrite <- !app_assoc; auto| |]; intros X; [apply A|apply B]; right; auto.
Qed.

(** ** Files *)
Lemma ends_noquote s : (match s with [] => True | d :: _ => In d [" "; TAB; LF; CR; "("; ")"; ";"] end) -> ends s /\ match s with d :: _ => d <> QUOTE | [] => True end.
Proof. destruct s as [|d s]; auto. cbn [In ends delims]. intros H. split; [tauto|]. intros ->. repeat destruct H as [H|H]; try discriminate H; auto. Qed.
Lemma gap_head g s : Forall gap_item_ok g -> g <> [] -> match show_gap g ++ s with [] => True | d :: _ => In d [" "; TAB; LF; CR; "("; ")"; ";"] end.
Proof.
  intros H N. destruct g as [|[c|t] g]; [congruence| |]; cbn [show_gap flat_map show_gap_item app].
  - inversion H; subst. match goal with X : gap_item_ok _ |- _ => cbn [gap_item_ok] in X; cbn [In] in *; tauto end.
  - cbn [In]. tauto.
Qed.
Lemma classic_paren l : paren l \/ ~ paren l.
Proof. unfold paren. destruct l; ((left; tauto) || (right; intros [X|X]; discriminate X)). Qed.
Lemma scan_lexeme l s : lexeme_ok l -> (paren l \/ match s with [] => True | d :: _ => In d [" "; TAB; LF; CR; "("; ")"; ";"] end) ->
  scan (show_lexeme l ++ s) = option_map (cons (token_of l)) (scan s).
Proof.
  intros K H. destruct (classic_paren l) as [P|P].
  - destruct P as [->| ->]; cbn [show_lexeme app token_of]; apply scan_paren; auto.
  - destruct H as [H|H]; [contradiction|]. destruct (ends_noquote s H) as [E Q]. destruct l; cbn [show_lexeme token_of lexeme_ok] in *.
    + apply scan_reserved; auto. apply words_reserved; auto.
    + apply scan_symbol; auto.
    + apply (scan_number t s); auto.
    + apply scan_hex; auto.
    + destruct K. apply scan_attribute; auto.
    + exfalso. apply P. left. auto.
    + exfalso. apply P. right. auto.
    + cbn [app]. rewrite (scan_pick _ _ _ (pick_quote _)). cbn [skipn]. rewrite <- app_assoc. cbn [app]. rewrite in_str_escape by auto. auto.
    + destruct K. cbn [app]. rewrite (scan_pick _ _ _ (pick_bar _)). cbn [skipn]. rewrite <- app_assoc. cbn [app]. rewrite in_quoted_plain by auto. auto.
Qed.
Lemma scan_show items last : file_ok items last -> scan (show items last) = Some (map (fun i => token_of (snd i)) items).
Proof.
  intros (A & B & C). induction items as [|[g l] items IH]; cbn [show map snd].
  - rewrite <- (app_nil_r (show_gap last)), scan_gap by auto. reflexivity.
  - inversion A as [|? ? [G L] A']; subst. cbn [fst snd] in *. rewrite scan_gap by auto.
    assert (C' : separated items) by (cbn [separated] in C; destruct items as [|[g' l'] it]; auto; tauto).
    rewrite scan_lexeme; [rewrite IH by auto; auto|auto|]. cbn [separated] in C. destruct items as [|[g' l'] it]; cbn [show].
    + right. destruct last as [|x last']; [cbn; auto|]. rewrite <- (app_nil_r (show_gap _)). apply gap_head; auto. discriminate.
    + inversion A' as [|? ? [G' L'] _]; subst. cbn [fst snd] in *. destruct C as [C _]. destruct g' as [|x g''].
      * destruct (C eq_refl) as [P|P]; [left; auto|right]. cbn [show_gap flat_map app]. destruct P as [->| ->]; cbn [show_lexeme app In]; tauto.
      * right. apply gap_head; auto. discriminate.
Qed.

(** ** Any text can be scanned *)
Lemma scan_total s : exists ts, scan s = Some ts.
Proof.
  unfold scan. assert (H : forall n s, List.length s <= n -> exists ts, scan_n n s = Some ts); [|apply H; auto]. clear s. induction n as [|n IH]; intros s L.
  - destruct s; [exists []; auto|cbn in L; lia].
  - cbn [scan_n]. destruct (pick rules s) as [[k a]|] eqn:P; [|eauto]. apply pick_pos in P. pose proof (skipn_length k s) as K.
    destruct a as [|f| |].
    + apply IH. lia.
    + destruct (IH (skipn k s)) as [ts E]; [lia|]. rewrite E. cbn. eauto.
    + destruct (in_str _ _) as [[t r]|] eqn:E; eauto. apply in_str_len in E. destruct (IH r) as [ts X]; [lia|]. rewrite X. cbn. eauto.
    + destruct (in_quoted _ _) as [[t r]|] eqn:E; eauto. apply in_quoted_len in E. destruct (IH r) as [ts X]; [lia|]. rewrite X. cbn. eauto.
Qed.
Lemma in_str_open t : forall acc, ~ In QUOTE t -> in_str acc t = None.
Proof.
  induction t as [|c t IH]; intros acc H; auto. cbn [in_str]. unfold is at 1. destruct (Ascii.eqb_spec QUOTE c) as [<-|_]; [exfalso; apply H; left; auto|]. apply IH. intros X. apply H. right. auto.
Qed.
Lemma scan_open_string t : ~ In QUOTE t -> scan (QUOTE :: t) = Some [].
Proof. intros H. rewrite (scan_pick _ _ _ (pick_quote t)). cbn [skipn]. rewrite in_str_open; auto. Qed.
Lemma scan_layout items items' last last' : file_ok items last -> file_ok items' last' -> map snd items = map snd items' -> scan (show items last) = scan (show items' last').
Proof.
  intros A B E. rewrite !scan_show by auto. f_equal. rewrite <- !(map_map snd token_of). rewrite E. auto.
Qed.
