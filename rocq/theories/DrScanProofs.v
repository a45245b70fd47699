(** The scanner of .dr files reads back what was written. *)
From Coq Require Import List Bool Ascii String NArith Lia Arith.
From Verif Require Import Scan SpecScan ScanProofs DrScan SpecDrScan.
Import ListNotations.
Local Open Scope char_scope.
Local Open Scope list_scope.

(** ** Fuel *)
Lemma dr_rules_fine : forallb (fun ra => negb (nullable (fst ra)) && match snd ra with Skip | Emit _ => true | _ => false end) dr_rules = true.
Proof. vm_compute. reflexivity. Qed.
Lemma dr_pick_pos s n a : pick dr_rules s = Some (n, a) -> 1 <= n <= List.length s /\ (a = Skip \/ exists f, a = Emit f).
Proof.
  intros H. destruct (pick_in _ _ _ _ H) as (r & X & L). apply longest_inv in L. destruct L as [A B].
  pose proof dr_rules_fine as N. rewrite forallb_forall in N. specialize (N _ X). cbn [fst snd] in N. apply andb_true_iff in N. destruct N as [N M]. split.
  - split; auto. destruct n; [|lia]. unfold matchb in B. cbn [firstn derivs] in B. rewrite B in N. discriminate.
  - destruct a; try discriminate; eauto.
Qed.
Lemma dr_pick_nil : pick dr_rules [] = None.
Proof. vm_compute. reflexivity. Qed.
Lemma dr_fuel n : forall m s, List.length s <= n -> List.length s <= m -> dr_scan_n n s = dr_scan_n m s.
Proof.
  induction n as [|n IH]; intros m s Hn Hm.
  - destruct s; [|cbn in Hn; lia]. destruct m; cbn [dr_scan_n]; rewrite ?dr_pick_nil; auto.
  - destruct m as [|m]; [destruct s; [|cbn in Hm; lia]; cbn [dr_scan_n]; rewrite dr_pick_nil; auto|].
    cbn [dr_scan_n]. destruct (pick dr_rules s) as [[k a]|] eqn:Ep; auto. apply dr_pick_pos in Ep. destruct Ep as [Ep [->|[f ->]]]; pose proof (skipn_length k s) as L.
    + apply IH; lia.
    + rewrite (IH m) by lia. auto.
Qed.
Lemma dr_skip s k : pick dr_rules s = Some (k, Skip) -> dr_scan s = dr_scan (skipn k s).
Proof.
  intros H. destruct (dr_pick_pos _ _ _ H) as [P _]. pose proof (skipn_length k s) as L. unfold dr_scan at 1. destruct s as [|c s]; [cbn in P; lia|].
  cbn [List.length]. cbn [dr_scan_n]. rewrite H. cbn [List.length] in *. apply dr_fuel; lia.
Qed.
Lemma dr_emit s k f : pick dr_rules s = Some (k, Emit f) -> dr_scan s = option_map (cons (f (firstn k s))) (dr_scan (skipn k s)).
Proof.
  intros H. destruct (dr_pick_pos _ _ _ H) as [P _]. pose proof (skipn_length k s) as L. unfold dr_scan at 1. destruct s as [|c s]; [cbn in P; lia|].
  cbn [List.length]. cbn [dr_scan_n]. rewrite H. cbn [List.length] in *. rewrite (dr_fuel _ (List.length (skipn k (c :: s)))) by lia. auto.
Qed.
Lemma dr_scan_total s : exists ts, dr_scan s = Some ts.
Proof.
  unfold dr_scan. assert (H : forall n s, List.length s <= n -> exists ts, dr_scan_n n s = Some ts); [|apply H; auto]. clear s. induction n as [|n IH]; intros s L.
  - destruct s; [exists []; auto|cbn in L; lia].
  - cbn [dr_scan_n]. destruct (pick dr_rules s) as [[k a]|] eqn:P; [|eauto]. apply dr_pick_pos in P. pose proof (skipn_length k s) as K. destruct P as [P [->|[f ->]]].
    + apply IH. lia.
    + destruct (IH (skipn k s)) as [ts E]; [lia|]. rewrite E. cbn. eauto.
Qed.

(** ** Gaps *)
Definition dr_before := (dr_comment, Skip) :: map (fun kv => (word (lit (fst kv)), Emit (fun _ : text => TK (snd kv)))) dr_table.
Definition dr_after := [(dr_newline, Skip); (d_int, Emit DOUBLE); (d_double, Emit DOUBLE); (d_double2, Emit DOUBLE); (d_id, Emit SYMBOL)].
Lemma dr_rules_split : dr_rules = dr_before ++ (dr_blanks, Skip) :: (dr_after ++ [dot_rule]).
Proof. reflexivity. Qed.
Lemma dr_pick_blank c s : ws c = true -> pick dr_rules (c :: s) = Some (S (run ws s), Skip).
Proof.
  intros H. rewrite dr_rules_split. rewrite pick_dead by (destruct (ws_cases c H) as [->|[->| ->]]; vm_compute; reflexivity).
  apply (pick_first _ _ _ _ _ 1 (snd dot_rule)); [apply (longest_plus ws); auto| |lia].
  rewrite pick_dead by (destruct (ws_cases c H) as [->|[->| ->]]; vm_compute; reflexivity). apply pick_dot. destruct (ws_cases c H) as [->|[->| ->]]; vm_compute; reflexivity.
Qed.
Lemma dr_scan_run s : dr_scan s = dr_scan (skipn (run ws s) s).
Proof. destruct s as [|c s]; auto. cbn [run]. destruct (ws c) eqn:E; auto. rewrite (dr_skip _ _ (dr_pick_blank c s E)). auto. Qed.
Lemma pick_only r a rs s n : longest r s = Some n -> pick rs s = None -> pick ((r, a) :: rs) s = Some (n, a).
Proof. intros A B. cbn [pick]. rewrite A, B. auto. Qed.
Lemma dr_pick_lf s : pick dr_rules (LF :: s) = Some (1, Skip).
Proof.
  rewrite dr_rules_split. rewrite pick_dead by (vm_compute; reflexivity). replace ((dr_blanks, Skip) :: dr_after ++ [dot_rule]) with ([(dr_blanks, Skip)] ++ (dr_newline, Skip) :: (tl dr_after ++ [dot_rule])) by reflexivity.
  rewrite pick_dead by (vm_compute; reflexivity). apply pick_only; [apply (longest_ch LF)|]. rewrite pick_dead by (vm_compute; reflexivity). cbn [pick dot_rule]. rewrite longest_dead; auto.
Qed.
Lemma dr_scan_blank c s : In c [" "; TAB; LF; CR] -> dr_scan (c :: s) = dr_scan s.
Proof.
  assert (W : forall c, ws c = true -> dr_scan (c :: s) = dr_scan s). { intros d H. rewrite (dr_skip _ _ (dr_pick_blank d s H)). cbn [skipn]. symmetry. apply dr_scan_run. }
  intros [<-|[<-|[<-|[<-|[]]]]]; try (apply W; reflexivity). rewrite (dr_skip _ _ (dr_pick_lf s)). reflexivity.
Qed.
Lemma dr_scan_nl s : dr_scan (skipn (run nl s) s) = dr_scan s.
Proof.
  induction s as [|c s IH]; auto. cbn [run]. destruct (nl c) eqn:E; auto. cbn [skipn]. rewrite IH. symmetry. apply dr_scan_blank. destruct (nl_cases c E) as [->| ->]; cbn [In]; auto.
Qed.
(** Both kinds of comments differ in their first character only. *)
Lemma dr_longest_comment t s : ~ In LF t -> longest dr_comment ("#" :: t ++ LF :: s) = Some (2 + List.length t + run nl s).
Proof.
  intros N. rewrite <- (longest_comment t s N). unfold longest. cbn [longest_from].
  assert (A : nullable dr_comment = nullable comment) by reflexivity. assert (B : deriv "#" dr_comment = deriv ";" comment) by reflexivity. rewrite A, B. reflexivity.
Qed.
Lemma dr_rules_comment : dr_rules = (dr_comment, Skip) :: (tl dr_before ++ (dr_blanks, Skip) :: dr_after) ++ [dot_rule].
Proof. reflexivity. Qed.
Lemma dr_comment_dead : forallb (dead "#") (tl dr_before ++ (dr_blanks, Skip) :: dr_after) = true.
Proof. vm_compute. reflexivity. Qed.
Lemma dr_scan_comment t s : ~ In LF t -> dr_scan ("#" :: t ++ LF :: s) = dr_scan s.
Proof.
  intros N. assert (P : pick dr_rules ("#" :: t ++ LF :: s) = Some (2 + List.length t + run nl s, Skip)).
  { rewrite dr_rules_comment. apply (pick_first _ _ _ _ _ 1 (snd dot_rule)); [apply dr_longest_comment; auto| |lia]. rewrite (pick_dead _ _ _ _ dr_comment_dead). apply pick_dot. reflexivity. }
  rewrite (dr_skip _ _ P). replace (2 + List.length t + run nl s) with (S (List.length (t ++ [LF]) + run nl s)) by (rewrite app_length; cbn; lia). cbn [skipn].
  replace (t ++ LF :: s) with ((t ++ [LF]) ++ s) by (rewrite <- app_assoc; auto). rewrite skipn_app. rewrite (skipn_all2 (t ++ [LF])) by lia. cbn [app].
  replace (List.length (t ++ [LF]) + run nl s - List.length (t ++ [LF])) with (run nl s) by lia. apply dr_scan_nl.
Qed.
Lemma dr_scan_gap g s : Forall gap_item_ok g -> dr_scan (show_dr_gap g ++ s) = dr_scan s.
Proof.
  induction g as [|[c|t] g IH]; intros H; cbn [show_dr_gap flat_map app]; auto; inversion H; subst; fold (show_dr_gap g).
  - rewrite dr_scan_blank by auto. auto.
  - rewrite <- !app_assoc. cbn [app]. rewrite dr_scan_comment by auto. auto.
Qed.

(** ** Where a match stops *)
Lemma longest_app s : forall w k b r, match s with [] => True | d :: _ => deriv d (derivs w r) = Void end -> longest_from k b r (w ++ s) = longest_from k b r w.
Proof.
  induction w as [|c w IH]; intros k b r H; cbn [app longest_from].
  - destruct s as [|d s]; auto. cbn [longest_from derivs] in *. rewrite H. apply longest_void.
  - apply IH. exact H.
Qed.
Lemma pick_app rs w s : (forall q b, In (q, b) rs -> match s with [] => True | d :: _ => deriv d (derivs w q) = Void end) -> pick rs (w ++ s) = pick rs w.
Proof. intros H. apply pick_ext. intros q b Hq. apply longest_app. eapply H; eauto. Qed.
Lemma avoids_derivs d w : forall r, avoids d r = true -> avoids d (derivs w r) = true.
Proof. induction w as [|c w IH]; intros r H; cbn [derivs]; auto. apply IH. apply avoids_deriv; auto. Qed.
Lemma dr_emit_app w s f : pick dr_rules (w ++ s) = Some (List.length w, Emit f) -> dr_scan (w ++ s) = option_map (cons (f w)) (dr_scan s).
Proof. intros P. rewrite (dr_emit _ _ _ P). rewrite firstn_app, skipn_app, firstn_all, skipn_all, Nat.sub_diag. cbn [firstn skipn]. rewrite app_nil_r. auto. Qed.
Definition stops (s : text) : Prop := match s with [] => True | d :: _ => id_continue d = false end.

(** *** Words *)
Lemma letter_avoids c d q b : letter c = true -> id_continue d = false -> In (q, b) dr_rules -> avoids d (deriv c q) = true.
Proof.
  intros H N Q. pose proof (all_bytes (fun d => id_continue d || forallb (fun c => forallb (fun ra => avoids d (deriv c (fst ra))) dr_rules) LETTERS) ltac:(vm_compute; reflexivity) d) as A.
  cbn beta in A. rewrite N in A. cbn [orb] in A. rewrite forallb_forall in A.
  assert (L : In c LETTERS). { apply in_oneof. pose proof (all_bytes (fun c => negb (letter c) || oneof LETTERS c) ltac:(vm_compute; reflexivity) c) as B. cbn beta in B. rewrite H in B. exact B. }
  specialize (A c L). rewrite forallb_forall in A. apply (A _ Q).
Qed.
Lemma pick_letter c w s : letter c = true -> stops s -> pick dr_rules ((c :: w) ++ s) = pick dr_rules (c :: w).
Proof.
  intros H E. apply pick_app. intros q b Q. destruct s as [|d s]; auto. cbn [stops derivs] in *. apply avoids_dead, avoids_derivs. eapply letter_avoids; eauto.
Qed.
Definition dr_fine (name : string -> token) (k : string) : bool :=
  match pick dr_rules (lit k) with
  | Some (n, Emit f) => Nat.eqb n (List.length (lit k)) && match f (lit k), name k with TK v, TK v' => String.eqb v v' | CHAR c, CHAR c' => Ascii.eqb c c' | _, _ => false end
  | _ => false
  end.
Lemma dr_fine_pick name k : dr_fine name k = true -> exists f, pick dr_rules (lit k) = Some (List.length (lit k), Emit f) /\ f (lit k) = name k.
Proof.
  unfold dr_fine. destruct (pick dr_rules (lit k)) as [[n [|f| |]]|]; try discriminate. intros H. apply andb_true_iff in H. destruct H as [A B]. apply Nat.eqb_eq in A. subst n. exists f. split; auto.
  destruct (f (lit k)), (name k); try discriminate; f_equal; [apply String.eqb_eq|apply Ascii.eqb_eq]; auto.
Qed.
Lemma dr_scan_kw k s : In k DR_WORDS -> stops s -> dr_scan (lit k ++ s) = option_map (cons (TK (dr_name k))) (dr_scan s).
Proof.
  intros H E. assert (A : forallb (fun k => dr_fine (fun k => TK (dr_name k)) k && match lit k with c :: _ => letter c | [] => false end) DR_WORDS = true) by (vm_compute; reflexivity).
  rewrite forallb_forall in A. specialize (A k H). apply andb_true_iff in A. destruct A as [A B]. destruct (dr_fine_pick _ _ A) as (f & P & <-).
  destruct (lit k) as [|c w]; [discriminate|]. apply dr_emit_app. rewrite pick_letter by auto. exact P.
Qed.
Lemma dr_scan_id c w s : dlexeme_ok (DId c w) -> stops s -> dr_scan ((c :: w) ++ s) = option_map (cons (SYMBOL (c :: w))) (dr_scan s).
Proof.
  intros (H & I & N) E. assert (L : letter c = true).
  { pose proof (all_bytes (fun c => negb (oneof LETTERS c) || letter c) ltac:(vm_compute; reflexivity) c) as B. cbn beta in B. apply in_oneof in H. rewrite H in B. exact B. }
  apply dr_emit_app. rewrite pick_letter by auto.
  replace dr_rules with ((dr_before ++ (dr_blanks, Skip) :: [(dr_newline, Skip); (d_int, Emit DOUBLE); (d_double, Emit DOUBLE); (d_double2, Emit DOUBLE)]) ++ (d_id, Emit SYMBOL) :: [dot_rule]) by reflexivity.
  apply pick_full.
  - apply matchb_lang. unfold d_id. change (c :: w) with ([c] ++ w). constructor; [constructor; auto|]. apply star_all. apply forallb_forall. intros x Hx.
    pose proof (all_bytes (fun c => negb (oneof (LETTERS ++ DIGITS ++ ["_"; "."]) c) || id_continue c) ltac:(vm_compute; reflexivity) x) as B. cbn beta in B. specialize (I x Hx). apply in_oneof in I. rewrite I in B. exact B.
  - intros q b Q. apply in_app_or in Q. destruct Q as [Q|Q].
    + unfold dr_before in Q. destruct Q as [Q|Q].
      * assert (q = dr_comment) by congruence. subst q. unfold matchb. cbn [derivs]. assert (D : deriv c dr_comment = Void). { unfold dr_comment, ch. cbn [deriv nullable]. unfold is at 1. destruct (Ascii.eqb_spec "#" c); [subst c; discriminate L|]. auto. }
        rewrite D, derivs_void. auto.
      * apply in_map_iff in Q. destruct Q as (kv & X & Q). destruct (matchb q (c :: w)) eqn:M; auto. exfalso. assert (q = word (lit (fst kv))) by congruence. subst q. apply word_match in M.
        assert (A : forallb (fun kv => existsb (String.eqb (fst kv)) DR_WORDS || match lit (fst kv) with c :: _ => negb (letter c) | [] => true end) dr_table = true) by (vm_compute; reflexivity).
        rewrite forallb_forall in A. specialize (A kv Q). rewrite <- M, L in A. apply orb_true_iff in A. destruct A as [A|A]; [|discriminate]. apply existsb_exists in A. destruct A as (x & Y & Z). apply String.eqb_eq in Z. subst x.
        apply N. rewrite M. apply in_map. auto.
    + eapply dead_match. pose proof (all_bytes (fun c => negb (letter c) || forallb (dead c) ((dr_blanks, Skip) :: [(dr_newline, Skip); (d_int, Emit DOUBLE); (d_double, Emit DOUBLE); (d_double2, Emit DOUBLE)])) ltac:(vm_compute; reflexivity) c) as B.
      cbn beta in B. rewrite L in B. cbn [negb orb] in B. rewrite forallb_forall in B. apply (B _ Q).
Qed.

(** *** Operators *)
Definition merge_b (k : string) (d : ascii) : bool := ((String.eqb k "<" || String.eqb k ">") && Ascii.eqb d "=") || (String.eqb k "=" && Ascii.eqb d ">").
Definition op_token (k : string) : token := if String.eqb k "(" then CHAR "(" else if String.eqb k ")" then CHAR ")" else TK (dr_name k).
Lemma dr_scan_op k s : In k DR_OPS -> match s with [] => True | d :: _ => merge_b k d = false end -> dr_scan (lit k ++ s) = option_map (cons (op_token k)) (dr_scan s).
Proof.
  intros H E. assert (A : forallb (dr_fine op_token) DR_OPS = true) by (vm_compute; reflexivity). rewrite forallb_forall in A. specialize (A k H). destruct (dr_fine_pick _ _ A) as (f & P & <-).
  apply dr_emit_app. rewrite pick_app; auto. intros q b Q. destruct s as [|d s]; auto.
  pose proof (all_bytes (fun d => forallb (fun k => merge_b k d || forallb (fun ra => is_void (deriv d (derivs (lit k) (fst ra)))) dr_rules) DR_OPS) ltac:(vm_compute; reflexivity) d) as B.
  cbn beta in B. rewrite forallb_forall in B. specialize (B k H). rewrite E in B. cbn [orb] in B. rewrite forallb_forall in B. apply is_void_eq. apply (B _ Q).
Qed.

(** *** Numbers *)
Lemma pick_bounded rs1 r a rs2 x n : longest r x = Some n -> (forall q b m, In (q, b) (rs1 ++ rs2) -> longest q x = Some m -> m <= n) ->
  (forall q b, In (q, b) rs1 -> longest q x <> Some n) -> pick (rs1 ++ (r, a) :: rs2) x = Some (n, a).
Proof.
  intros L B N. induction rs1 as [|[q b] rs1 IH]; cbn [app pick].
  - rewrite L. destruct (pick rs2 x) as [[m c]|] eqn:E; auto. destruct (pick_in _ _ _ _ E) as (q & Q & X). specialize (B q c m Q X). destruct (Nat.ltb_spec n m); [lia|auto].
  - rewrite IH; [| |intros; eapply N; right; eauto].
    + destruct (longest q x) as [m|] eqn:E; auto. specialize (B q b m ltac:(left; auto) E). specialize (N q b ltac:(left; auto)). destruct (Nat.ltb_spec m n); auto. assert (m = n) by lia. subst. congruence.
    + intros q' b' m Q X. apply (B q' b' m); auto. right. auto.
Qed.
Lemma lang_avoids r x d : lang r x -> avoids d r = true -> ~ In d x.
Proof. intros H A I. apply matchb_lang in H. rewrite (avoids_match d x r A I) in H. discriminate. Qed.
Definition num_body := Alt digits (Seq (Star (Cls digit)) (Seq (opt (ch ".")) digits)).
Lemma body_avoids d : id_continue d = false -> avoids d num_body = true.
Proof. intros H. pose proof (all_bytes (fun d => id_continue d || avoids d num_body) ltac:(vm_compute; reflexivity) d) as A. cbn beta in A. rewrite H in A. exact A. Qed.
Lemma digits_avoids d : digit d = false -> avoids d digits = true.
Proof. intros H. unfold digits, plus. cbn [avoids]. rewrite H. auto. Qed.
Lemma exponent_inv ex : lang exponent ex -> ex = [] \/ exists e sg ds, ex = e :: sg ++ ds /\ oneof ["e"; "E"] e = true /\ (sg = [] \/ exists c, sg = [c]) /\ lang digits ds.
Proof.
  unfold exponent, opt. intros H. inversion H as [| | |a b s X|a b s X| |]; subst; [inversion X; auto|]. right. destruct (seq_inv _ _ _ X) as (x1 & x2 & -> & A & B). destruct (cls_inv _ _ A) as (e & -> & E).
  destruct (seq_inv _ _ _ B) as (sg & ds & -> & C & D). exists e, sg, ds. split; auto. split; auto. split; auto. unfold sign, opt in C. inversion C as [| | |a b s Y|a b s Y| |]; subst; [inversion Y; auto|]. right. destruct (cls_inv _ _ Y) as (c & -> & _). eauto.
Qed.
Lemma num_no_ext w x d s : digit x = true -> id_continue d = false -> ~ lang d_double ((w ++ [x]) ++ d :: s).
Proof.
  intros Hx Hd H. unfold d_double in H. fold num_body in H. destruct (seq_inv _ _ _ H) as (a & ex & E & A & B).
  assert (Dd : digit d = false). { unfold id_continue in Hd. apply orb_false_iff in Hd. destruct Hd as [Hd _]. apply orb_false_iff in Hd. tauto. }
  assert (Na : ~ In d a) by (eapply lang_avoids; eauto; apply body_avoids; auto).
  assert (K : exists u, w ++ [x] = a ++ u /\ ex = u ++ d :: s).
  { clear -E Na. revert a E Na. induction (w ++ [x]) as [|y l IH]; intros a E Na; cbn [app] in E.
    - destruct a as [|z a]; [exists []; split; auto|]. injection E as -> _. exfalso. apply Na. left. auto.
    - destruct a as [|z a]; [exists (y :: l); split; auto|]. injection E as -> E. destruct (IH a E) as (u & U & V); [intros X; apply Na; right; auto|]. exists u. rewrite U. auto. }
  destruct K as (u & U & V). destruct (exponent_inv _ B) as [->|(e & sg & ds & -> & He & Hs & Hd')]; [destruct u; discriminate|].
  assert (Nd : ~ In d ds) by (eapply lang_avoids; eauto; apply digits_avoids; auto).
  destruct u as [|y u]; cbn [app] in V.
  - injection V as -> _. apply in_oneof in He. destruct He as [<-|[<-|[]]]; discriminate Hd.
  - injection V as <- V. destruct Hs as [->|[c ->]]; cbn [app] in V.
    + apply Nd. rewrite V. apply in_or_app. right. left. auto.
    + destruct u as [|z u]; cbn [app] in V.
      * assert (X : last (w ++ [x]) x = last (a ++ [e]) x) by congruence. rewrite !last_last in X. subst e. apply in_oneof in He. destruct He as [<-|[<-|[]]]; discriminate Hx.
      * injection V as _ V. apply Nd. rewrite V. apply in_or_app. right. left. auto.
Qed.
Lemma digits_last ds : ds <> [] -> incl ds DIGITS -> exists w x, ds = w ++ [x] /\ digit x = true.
Proof. intros N I. destruct (exists_last N) as (w & x & ->). exists w, x. split; auto. rewrite digit_eq. apply in_oneof. apply I. apply in_or_app. right. left. auto. Qed.
Lemma num_last ds fs ex : dlexeme_ok (DNum ds fs ex) -> exists w x, ds ++ fs ++ ex = w ++ [x] /\ digit x = true.
Proof.
  intros (N & I & F & X). destruct X as [->|(e & sg & es & -> & He & Hs & Ie & Ne)].
  - rewrite app_nil_r. destruct F as [->|(f & -> & Nf & If)].
    + rewrite app_nil_r. apply digits_last; auto.
    + destruct (digits_last f Nf If) as (w & x & -> & Hx). exists (ds ++ "." :: w), x. split; auto. rewrite <- app_assoc. auto.
  - destruct (digits_last es Ne Ie) as (w & x & -> & Hx). exists (ds ++ fs ++ e :: sg ++ w), x. split; auto. rewrite <- !app_assoc. cbn [app]. rewrite <- !app_assoc. auto.
Qed.
Lemma num_lang ds fs ex : dlexeme_ok (DNum ds fs ex) -> lang d_double (ds ++ fs ++ ex).
Proof.
  intros (N & I & F & X). unfold d_double. rewrite app_assoc. constructor; [|apply exponent_lang; auto]. destruct ds as [|c ds]; [congruence|]. destruct F as [->|(f & -> & Nf & If)].
  - rewrite app_nil_r. apply L_altl. apply digits_lang, incl_dig; auto.
  - apply L_altr. constructor; [apply star_all, incl_dig; auto|]. change ("." :: f) with (["."] ++ f). constructor; [apply L_altr; constructor; reflexivity|]. destruct f; [congruence|]. apply digits_lang, incl_dig; auto.
Qed.
Lemma no_longer q w s : (forall d t, match s with d' :: s' => d = d' /\ exists u, s' = t ++ u | [] => False end -> matchb q (w ++ d :: t) = false) -> forall m, longest q (w ++ s) = Some m -> m <= List.length w.
Proof.
  intros H m L. apply longest_inv in L. destruct L as [A B]. destruct (le_lt_dec m (List.length w)); auto. exfalso. rewrite app_length in A. destruct s as [|d s]; [cbn in A; lia|].
  rewrite firstn_app in B. rewrite firstn_all2 in B by lia. replace (m - List.length w) with (S (m - S (List.length w))) in B by lia. cbn [firstn] in B.
  rewrite H in B; [discriminate|]. split; auto. exists (skipn (m - S (List.length w)) s). symmetry. apply firstn_skipn.
Qed.
Lemma dr_scan_num ds fs ex s : dlexeme_ok (DNum ds fs ex) -> stops s -> dr_scan ((ds ++ fs ++ ex) ++ s) = option_map (cons (DOUBLE (ds ++ fs ++ ex))) (dr_scan s).
Proof.
  intros K E. pose proof (num_lang _ _ _ K) as M. destruct (num_last _ _ _ K) as (w & x & W & Hx).
  assert (F : exists c v, ds ++ fs ++ ex = c :: v /\ digit c = true).
  { destruct K as (N & I & _). destruct ds as [|c ds]; [congruence|]. exists c, (ds ++ fs ++ ex). split; auto. rewrite digit_eq. apply in_oneof. apply I. left. auto. }
  destruct F as (c & v & F & Hc). set (z := ds ++ fs ++ ex) in *.
  assert (R : forall q b, In (q, b) dr_rules -> q = d_double \/ (forall d, id_continue d = false -> avoids d (deriv c q) = true)).
  { intros q b Q. rewrite dr_rules_split in Q.
    assert (A : forall rs, forallb (fun ra => (fun q => forallb (fun d => id_continue d || avoids d (deriv c q)) (map ascii_of_nat (seq 0 256))) (fst ra)) rs = true -> In (q, b) rs -> forall d, id_continue d = false -> avoids d (deriv c q) = true).
    { intros rs X Y d Hd. rewrite forallb_forall in X. specialize (X _ Y). cbn [fst] in X. pose proof (all_bytes _ X d) as Z. cbn beta in Z. rewrite Hd in Z. exact Z. }
    assert (C : forallb (fun ra => (fun q => forallb (fun d => id_continue d || avoids d (deriv c q)) (map ascii_of_nat (seq 0 256))) (fst ra))
       (dr_before ++ [(dr_blanks, Skip); (dr_newline, Skip); (d_int, Emit DOUBLE)] ++ [(d_double2, Emit DOUBLE); (d_id, Emit SYMBOL); dot_rule]) = true).
    { rewrite digit_eq in Hc. apply in_oneof in Hc. repeat (destruct Hc as [<-|Hc]; [vm_compute; reflexivity|]). destruct Hc. }
    apply in_app_or in Q. destruct Q as [Q|Q]; [right; apply (A _ C), in_or_app; left; auto|].
    cbn [dr_after app In] in Q. destruct Q as [Q|[Q|[Q|[Q|[Q|[Q|[Q|[]]]]]]]]; try (right; apply (A _ C), in_or_app; right; rewrite <- Q; cbn [app In]; tauto). left. congruence. }
  assert (B : forall q b m, In (q, b) dr_rules -> longest q (z ++ s) = Some m -> m <= List.length z).
  { intros q b m Q L. eapply no_longer; [|exact L]. intros d t X. destruct s as [|d' s]; [destruct X|]. destruct X as [-> _]. cbn [stops] in E. destruct (R q b Q) as [->|A].
    - destruct (matchb d_double (z ++ d' :: t)) eqn:Y; auto. exfalso. apply matchb_lang in Y. rewrite W in Y. exact (num_no_ext w x d' t Hx E Y).
    - rewrite F. unfold matchb. cbn [app derivs]. apply (avoids_match d' (v ++ d' :: t) (deriv c q)); auto. apply in_or_app. right. left. auto. }
  assert (L : longest d_double (z ++ s) = Some (List.length z)).
  { destruct (longest_cases d_double (z ++ s)) as [N|(j & Hj & J1 & J2)].
    - exfalso. specialize (N (List.length z)). rewrite firstn_app, firstn_all, Nat.sub_diag in N. cbn [firstn] in N. rewrite app_nil_r in N. apply matchb_lang in M. rewrite N in M; [discriminate|]. rewrite app_length. lia.
    - assert (X : longest d_double (z ++ s) = Some j) by (unfold longest; rewrite (longest_some _ _ 0 None j); auto). rewrite X. f_equal.
      assert (Q : In (d_double, Emit DOUBLE) dr_rules) by (rewrite dr_rules_split; apply in_or_app; right; cbn [dr_after app In]; tauto). specialize (B _ _ _ Q X).
      destruct (le_lt_dec (List.length z) j); [lia|]. specialize (J2 (List.length z)). rewrite firstn_app, firstn_all, Nat.sub_diag in J2. cbn [firstn] in J2. rewrite app_nil_r in J2. apply matchb_lang in M. rewrite J2 in M; [discriminate|lia|rewrite app_length; lia]. }
  assert (D : forall q b, In (q, b) (dr_before ++ [(dr_blanks, Skip); (dr_newline, Skip)]) -> longest q (z ++ s) = None).
  { intros q b Q. rewrite F. cbn [app]. assert (A : forallb (dead c) (dr_before ++ [(dr_blanks, Skip); (dr_newline, Skip)]) = true).
    { rewrite digit_eq in Hc. apply in_oneof in Hc. repeat (destruct Hc as [<-|Hc]; [vm_compute; reflexivity|]). destruct Hc. }
    rewrite forallb_forall in A. specialize (A _ Q). unfold dead in A. cbn [fst] in A. apply andb_true_iff in A. destruct A as [A1 A2]. apply negb_true_iff in A1. apply is_void_eq in A2. apply longest_dead; auto. }
  destruct (longest d_int (z ++ s)) as [m|] eqn:Ei; [destruct (Nat.eq_dec m (List.length z)) as [->|Hm]|].
  - apply dr_emit_app. replace dr_rules with ((dr_before ++ [(dr_blanks, Skip); (dr_newline, Skip)]) ++ (d_int, Emit DOUBLE) :: (skipn 2 dr_after ++ [dot_rule])) in * by reflexivity.
    apply pick_bounded; auto.
    + intros q b m' Q. apply (B q b). apply in_app_or in Q. apply in_or_app. cbn [In]. tauto.
    + intros q b Q. rewrite (D q b Q). discriminate.
  - apply dr_emit_app. replace dr_rules with ((dr_before ++ [(dr_blanks, Skip); (dr_newline, Skip)] ++ [(d_int, Emit DOUBLE)]) ++ (d_double, Emit DOUBLE) :: (skipn 3 dr_after ++ [dot_rule])) in * by reflexivity.
    apply pick_bounded; auto.
    + intros q b m' Q. apply (B q b). apply in_app_or in Q. apply in_or_app. cbn [In]. tauto.
    + intros q b Q. rewrite app_assoc in Q. apply in_app_or in Q. destruct Q as [Q|[Q|[]]]; [rewrite (D q b Q); discriminate|]. assert (q = d_int) by congruence. subst q. rewrite Ei. congruence.
  - apply dr_emit_app. replace dr_rules with ((dr_before ++ [(dr_blanks, Skip); (dr_newline, Skip)] ++ [(d_int, Emit DOUBLE)]) ++ (d_double, Emit DOUBLE) :: (skipn 3 dr_after ++ [dot_rule])) in * by reflexivity.
    apply pick_bounded; auto.
    + intros q b m' Q. apply (B q b). apply in_app_or in Q. apply in_or_app. cbn [In]. tauto.
    + intros q b Q. rewrite app_assoc in Q. apply in_app_or in Q. destruct Q as [Q|[Q|[]]]; [rewrite (D q b Q); discriminate|]. assert (q = d_int) by congruence. subst q. rewrite Ei. discriminate.
Qed.

(** ** Files *)
Definition good_next (l : dlexeme) (s : text) : Prop :=
  match l with DOp k => match s with [] => True | d :: _ => merge_b k d = false end | _ => stops s end.
Lemma dr_scan_lexeme l s : dlexeme_ok l -> good_next l s -> dr_scan (show_dlexeme l ++ s) = option_map (cons (dtoken_of l)) (dr_scan s).
Proof.
  intros K H. destruct l; cbn [show_dlexeme dtoken_of good_next] in *.
  - apply dr_scan_kw; auto.
  - apply (dr_scan_op k s); auto.
  - apply dr_scan_id; auto.
  - apply dr_scan_num; auto.
Qed.
Lemma dr_gap_head g s l : Forall gap_item_ok g -> g <> [] -> good_next l (show_dr_gap g ++ s).
Proof.
  intros H N. assert (X : forall d t, In d [" "; TAB; LF; CR; "#"] -> good_next l (d :: t)).
  { intros d t I. assert (A : id_continue d = false /\ Ascii.eqb d "=" = false /\ Ascii.eqb d ">" = false) by (repeat (destruct I as [<-|I]; [repeat split; reflexivity|]); destruct I).
    destruct A as (A & B & C). destruct l; cbn [good_next stops]; auto. unfold merge_b. rewrite B, C, !andb_false_r. auto. }
  destruct g as [|[c|t] g]; [congruence| |]; cbn [show_dr_gap flat_map app]; apply X.
  - inversion H as [|? ? Y]; subst. cbn [gap_item_ok In] in *. tauto.
  - cbn [In]. tauto.
Qed.
Lemma ops_first k : In k DR_OPS -> exists c w, lit k = c :: w /\ id_continue c = false.
Proof. intros H. unfold DR_OPS in H. repeat (destruct H as [<-|H]; [eexists; eexists; split; [reflexivity|reflexivity]|]). destruct H. Qed.
Lemma dr_next l l' s : dlexeme_ok l' -> is_op l \/ is_op l' -> ~ merges l l' -> good_next l (show_dlexeme l' ++ s).
Proof.
  intros K O M. destruct (show_dlexeme l') as [|d w] eqn:E.
  - exfalso. destruct l'; cbn [show_dlexeme dlexeme_ok] in *.
    + assert (A : forallb (fun k => match lit k with [] => false | _ => true end) DR_WORDS = true) by (vm_compute; reflexivity). rewrite forallb_forall in A. specialize (A _ K). rewrite E in A. discriminate.
    + destruct (ops_first _ K) as (c & w & X & _). congruence.
    + discriminate.
    + destruct K as [N _]. destruct ds; [congruence|discriminate].
  - cbn [app]. assert (G : (forall k, l <> DOp k) -> stops (d :: w ++ s)).
    { intros X. destruct O as [[k ->]|[k ->]]; [exfalso; apply (X k); auto|]. cbn [dlexeme_ok show_dlexeme] in *. destruct (ops_first _ K) as (c & w' & Y & Z). cbn [stops]. congruence. }
    destruct l; cbn [good_next]; try (apply G; discriminate). destruct (merge_b k d) eqn:X; auto. exfalso. apply M. exists k. split; auto. rewrite E. cbn [hd]. unfold merge_b in X. apply orb_true_iff in X.
    destruct X as [X|X]; apply andb_true_iff in X; destruct X as [X1 X2]; apply Ascii.eqb_eq in X2; subst d; [left|right]; split; auto; [apply orb_true_iff in X1; rewrite !String.eqb_eq in X1; auto|apply String.eqb_eq; auto].
Qed.
Lemma dr_scan_show items last : dr_file_ok items last -> dr_scan (show_dr items last) = Some (map (fun i => dtoken_of (snd i)) items).
Proof.
  intros (A & B & C). induction items as [|[g l] items IH]; cbn [show_dr map snd].
  - rewrite <- (app_nil_r (show_dr_gap last)), dr_scan_gap by auto. reflexivity.
  - inversion A as [|? ? [G L] A']; subst. cbn [fst snd] in *. rewrite dr_scan_gap by auto.
    assert (C' : dr_separated items) by (cbn [dr_separated] in C; destruct items as [|[g' l'] it]; auto; tauto).
    rewrite dr_scan_lexeme; [rewrite IH by auto; auto|auto|]. cbn [dr_separated] in C. destruct items as [|[g' l'] it]; cbn [show_dr].
    + destruct last as [|x last']; [destruct l; cbn; auto|]. rewrite <- (app_nil_r (show_dr_gap _)). apply dr_gap_head; auto. discriminate.
    + inversion A' as [|? ? [G' L'] _]; subst. cbn [fst snd] in *. destruct C as [C _]. destruct g' as [|x g''].
      * destruct (C eq_refl) as [P Q]. cbn [show_dr_gap flat_map app]. apply dr_next; auto.
      * apply dr_gap_head; auto. discriminate.
Qed.
Lemma dr_layout items items' last last' : dr_file_ok items last -> dr_file_ok items' last' -> map snd items = map snd items' -> dr_scan (show_dr items last) = dr_scan (show_dr items' last').
Proof. intros A B E. rewrite !dr_scan_show by auto. f_equal. rewrite <- !(map_map snd dtoken_of). rewrite E. auto. Qed.
