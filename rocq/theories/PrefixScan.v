(** The words the reader of C56 sees are the tokens of the scanner of C60. *)
From Coq Require Import List Bool Ascii String NArith ZArith Lia.
From Flocq Require IEEE754.BinarySingleNaN.
From Verif Require Import Scan SpecScan ScanProofs SpecPrefixScan.
From Verif Require Dbl Literal PrefixRead SpecLiteral PrefixReread.
Import ListNotations.
Local Open Scope char_scope.
Local Open Scope list_scope.

Lemma lit_inj a b : lit a = lit b -> a = b.
Proof. intros H. rewrite <- (string_of_list_ascii_of_string a), <- (string_of_list_ascii_of_string b). unfold lit in H. rewrite H. auto. Qed.

Lemma numeric_is_number w : numeric (lit w) -> PrefixRead.is_number w = true.
Proof. intros (t & W & E). apply lit_inj in E. subst. apply PrefixReread.is_number_show. auto. Qed.

(** ** Words *)
Lemma begin_eq c : PrefixRead.sym_begin c = sym_begin c.
Proof. apply eqb_prop. apply (all_bytes (fun c => Bool.eqb (PrefixRead.sym_begin c) (sym_begin c))). vm_compute. reflexivity. Qed.
Lemma char_eq c : PrefixRead.sym_char c = sym_continue c.
Proof. apply eqb_prop. apply (all_bytes (fun c => Bool.eqb (PrefixRead.sym_char c) (sym_continue c))). vm_compute. reflexivity. Qed.
Lemma chars_eq w : PrefixRead.all_chars PrefixRead.sym_char w = forallb sym_continue (lit w).
Proof. induction w as [|c w IH]; auto. cbn [PrefixRead.all_chars]. rewrite IH, char_eq. auto. Qed.
Lemma reserved_same w : In w (map fst reserved) -> PrefixRead.is_reserved w = true.
Proof.
  intros H. assert (A : forallb PrefixRead.is_reserved (map fst reserved) = true) by (vm_compute; reflexivity). rewrite forallb_forall in A. auto.
Qed.
Lemma scan_name w s : PrefixRead.is_symbol w = true -> ends s -> scan (lit w ++ s) = option_map (cons (SYMBOL (lit w))) (scan s).
Proof.
  unfold PrefixRead.is_symbol. intros H E. apply andb_true_iff in H. destruct H as [H NN]. apply andb_true_iff in H. destruct H as [H NH]. apply andb_true_iff in H. destruct H as [H NR].
  apply negb_true_iff in NN. apply negb_true_iff in NH. apply negb_true_iff in NR. unfold PrefixRead.is_hex in NH.
  assert (R : ~ In (lit w) (map (fun kv => lit (fst kv)) reserved)).
  { intros X. apply in_map_iff in X. destruct X as (kv & X & Y). apply lit_inj in X. subst. rewrite reserved_same in NR; [discriminate|]. apply in_map. auto. }
  assert (N : forall r, (forall x, lang r x -> numeric x) -> matchb r (lit w) = false).
  { intros r Hr. destruct (matchb r (lit w)) eqn:M; auto. apply matchb_lang in M. rewrite (numeric_is_number w (Hr _ M)) in NN. discriminate. }
  pose proof (N _ int_numeric) as N1. pose proof (N _ double_numeric) as N2. pose proof (N _ double2_numeric) as N3. change (list_ascii_of_string w) with (lit w) in NH.
  destruct w as [|c w]; [discriminate|]. apply andb_true_iff in H. destruct H as [B C]. rewrite begin_eq in B. rewrite chars_eq in C. change (lit (String c w)) with (c :: lit w) in *. destruct (sym_nondelim c B) as (D & S & _).
  apply scan_word; auto. rewrite rules_symbol. apply pick_full; [apply symbol_match; auto|].
  assert (BL : forallb (dead c) [(blanks, Skip); (newline, Skip)] = true).
  { pose proof (all_bytes (fun c => negb (sym_begin c) || forallb (dead c) [(blanks, Skip); (newline, Skip)]) ltac:(vm_compute; reflexivity) c) as A. cbn beta in A. rewrite B in A. exact A. }
  rewrite forallb_forall in BL. intros q b Q. apply in_app_or in Q. destruct Q as [Q|Q]; [eapply not_reserved; eauto|]. unfold numbers in Q.
  destruct Q as [Q|[Q|[Q|[Q|[Q|[Q|[]]]]]]].
  1, 2: eapply dead_match; apply BL; rewrite <- Q; cbn [In]; auto.
  - assert (q = r_int) by congruence. subst q. auto.
  - assert (q = r_double) by congruence. subst q. auto.
  - assert (q = r_double2) by congruence. subst q. auto.
  - assert (q = r_hex) by congruence. subst q. auto.
Qed.
Lemma scan_legible w s : legible w -> ends s -> exists k, read_as (PrefixRead.TWord w) k /\ scan (lit w ++ s) = option_map (cons k) (scan s).
Proof.
  intros [H|[H|(t & W & ->)]] E.
  - apply in_map_iff in H. destruct H as ([k v] & <- & H). exists (TK v). split; [constructor; auto|]. apply scan_reserved; auto.
  - exists (SYMBOL (lit w)). split; [constructor; auto|]. apply scan_name; auto.
  - exists (token_of (Number t)). split; [|apply (scan_number t s); auto]. cbn [token_of]. pose proof (whole_integral t) as I. destruct (whole t); constructor; auto; [apply I; auto|]. intros X. apply I in X. discriminate.
Qed.
Lemma scan_flush w ts l s : (forall v, In (PrefixRead.TWord v) (PrefixRead.flush w ts) -> legible v) -> ends s -> scan s = Some l -> Forall2 read_as ts l ->
  exists l', scan (lit w ++ s) = Some l' /\ Forall2 read_as (PrefixRead.flush w ts) l'.
Proof.
  intros H E S F. destruct w as [|c w]; [exists l; auto|]. destruct (scan_legible (String c w) s) as (k & K & X); auto; [apply H; left; auto|]. rewrite X, S. exists (k :: l). split; auto. constructor; auto.
Qed.
Lemma space_blank c : PrefixRead.is_space c = true -> In c [" "; TAB; LF; CR].
Proof.
  intros H. apply in_oneof. pose proof (all_bytes (fun c => negb (PrefixRead.is_space c) || oneof [" "; TAB; LF; CR] c) ltac:(vm_compute; reflexivity) c) as A. cbn beta in A. rewrite H in A. exact A.
Qed.
Lemma in_flush w v ts : In (PrefixRead.TWord v) ts -> In (PrefixRead.TWord v) (PrefixRead.flush w ts).
Proof. destruct w; cbn [PrefixRead.flush In]; auto. Qed.
Lemma lex_scan s : forall w ts, PrefixRead.lex s w = Some ts -> (forall v, In (PrefixRead.TWord v) ts -> legible v) ->
  exists l, scan (lit w ++ lit s) = Some l /\ Forall2 read_as ts l.
Proof.
  induction s as [|c s IH]; intros w ts L H; cbn [PrefixRead.lex] in L.
  - injection L as <-. apply (scan_flush w [] [] []); auto. exact I.
  - change (lit (String c s)) with (c :: lit s). destruct (Ascii.eqb_spec c "(") as [->|_]; [|destruct (Ascii.eqb_spec c ")") as [->|_]; [|destruct (PrefixRead.is_space c) eqn:SP]].
    + destruct (PrefixRead.lex s "") as [ts'|] eqn:X; [|discriminate]. injection L as <-. destruct (IH _ _ X) as (l & A & B); [intros v V; apply H, in_flush; right; auto|]. change (lit ""%string ++ lit s) with (lit s) in A.
      apply (scan_flush w (PrefixRead.TOpen :: ts') (CHAR "(" :: l)); auto; [cbn; tauto| |constructor; auto; constructor]. rewrite scan_paren by auto. rewrite A. auto.
    + destruct (PrefixRead.lex s "") as [ts'|] eqn:X; [|discriminate]. injection L as <-. destruct (IH _ _ X) as (l & A & B); [intros v V; apply H, in_flush; right; auto|]. change (lit ""%string ++ lit s) with (lit s) in A.
      apply (scan_flush w (PrefixRead.TClose :: ts') (CHAR ")" :: l)); auto; [cbn; tauto| |constructor; auto; constructor]. rewrite scan_paren by auto. rewrite A. auto.
    + destruct (PrefixRead.lex s "") as [ts'|] eqn:X; [|discriminate]. injection L as <-. destruct (IH _ _ X) as (l & A & B); [intros v V; apply H, in_flush; auto|]. change (lit ""%string ++ lit s) with (lit s) in A. apply space_blank in SP.
      apply (scan_flush w ts' l); auto; [unfold ends, delims; cbn [In] in *; tauto|]. rewrite scan_blank by auto. auto.
    + destruct (PrefixRead.sym_char c); [|discriminate]. destruct (IH _ _ L H) as (l & A & B). exists l. split; auto. rewrite lit_app, <- app_assoc in A. exact A.
Qed.
Lemma lex_scanned s ts : PrefixRead.lex s "" = Some ts -> (forall w, In (PrefixRead.TWord w) ts -> legible w) -> exists l, scan (lit s) = Some l /\ Forall2 read_as ts l.
Proof. exact (lex_scan s ""%string ts). Qed.

(** ** The words of a term that is read are legible *)

Lemma take_digits_inv s : forall v k v' k' r, Literal.take_digits s v k = (v', k', r) -> exists ds, s = String.append (SpecLiteral.show_digits ds) r /\ k' = (k + Z.of_nat (List.length ds))%Z.
Proof.
  induction s as [|c s IH]; intros v k v' k' r H; cbn [Literal.take_digits] in H.
  - injection H as <- <- <-. exists []. split; [auto|cbn; lia].
  - destruct (Literal.digit c) as [d|] eqn:D.
    + destruct (IH _ _ _ _ _ H) as (ds & E & K). assert (Hc : digit c = true).
      { pose proof (all_bytes (fun c => match Literal.digit c with Some _ => digit c | None => true end) ltac:(vm_compute; reflexivity) c) as A. cbn beta in A. rewrite D in A. exact A. }
      destruct (digit_show c Hc) as [d' <-]. exists (d' :: ds). split; [rewrite E; reflexivity|]. cbn [List.length]. lia.
    + injection H as <- <- <-. exists []. split; [auto|cbn; lia].
Qed.
Lemma take_sign_inv s : exists g, s = String.append (SpecLiteral.show_sign g) (snd (Literal.take_sign s)).
Proof.
  destruct s as [|c s]; [exists SpecLiteral.NoSign; auto|]. cbn [Literal.take_sign]. destruct (Ascii.eqb_spec c "-") as [->|_]; [exists SpecLiteral.Minus; auto|].
  destruct (Ascii.eqb_spec c "+") as [->|_]; [exists SpecLiteral.Plus; auto|exists SpecLiteral.NoSign; auto].
Qed.
Lemma is_number_inv w : PrefixRead.is_number w = true -> exists t, SpecLiteral.well_formed t /\ w = SpecLiteral.show t.
Proof.
  intros H. cut (numeric (lit w)). { intros (t & W & E). apply lit_inj in E. exists t. auto. }
  unfold PrefixRead.is_number in H. destruct (take_sign_inv w) as [g G]. set (s1 := snd (Literal.take_sign w)) in *. clearbody s1. subst w. rewrite lit_app.
  destruct (Literal.take_digits s1 0 0) as [[v1 k1] s2] eqn:T1. destruct (take_digits_inv _ _ _ _ _ _ T1) as (ds & -> & K1). clear T1. rewrite lit_app. change (lit (SpecLiteral.show_digits ds)) with (dtext ds).
  assert (X : exists f s3 k2 dot, match s2 with String c r => if Ascii.eqb c "." then let '(_, k, r') := Literal.take_digits r 0 0 in (true, k, r') else (false, 0%Z, s2) | EmptyString => (false, 0%Z, s2) end = (dot, k2, s3) /\
    lit s2 = ftext f ++ lit s3 /\ match f with None => dot = false /\ k2 = 0%Z | Some fs => dot = true /\ k2 = Z.of_nat (List.length fs) end).
  { destruct s2 as [|c r]; [exists None, ""%string, 0%Z, false; auto|]. destruct (Ascii.eqb_spec c ".") as [->|_]; [|exists None, (String c r), 0%Z, false; auto].
    destruct (Literal.take_digits r 0 0) as [[v2 k2] r'] eqn:T2. destruct (take_digits_inv _ _ _ _ _ _ T2) as (fs & -> & K2). exists (Some fs), r', k2, true. split; auto. split; [|split; [auto|lia]].
    change (lit (String "." ?a)) with ("." :: lit a). cbn [ftext app]. f_equal. apply lit_app. }
  destruct X as (f & s3 & k2 & dot & X & E2 & F). rewrite X in H. clear X. rewrite E2. destruct (k1 + k2 =? 0)%Z eqn:Z0; [discriminate|]. apply Z.eqb_neq in Z0.
  assert (NE : match f with None => ds <> [] | Some [] => ds <> [] | Some _ => True end).
  { destruct f as [[|x fs]|]; auto; intros ->; cbn in *; lia. }
  destruct s3 as [|c r].
  - change (lit "") with (etext None). apply numeric_make; auto. destruct f as [[|x fs]|]; auto.
  - apply andb_true_iff in H. destruct H as [H K]. apply andb_true_iff in H. destruct H as [C D]. apply negb_true_iff in D.
    destruct (take_sign_inv r) as [g' G']. set (r1 := snd (Literal.take_sign r)) in *. clearbody r1. subst r. destruct (Literal.take_digits r1 0 0) as [[v3 k3] r2] eqn:T3. destruct (take_digits_inv _ _ _ _ _ _ T3) as (es & -> & K3).
    apply andb_true_iff in K. destruct K as [K N]. apply negb_true_iff, Z.eqb_neq in K. destruct r2; [|discriminate].
    assert (Q : exists u, lit (String c (String.append (SpecLiteral.show_sign g') (String.append (SpecLiteral.show_digits es) ""))) = etext (Some (u, g', es))).
    { apply orb_true_iff in C. rewrite !Ascii.eqb_eq in C. destruct C as [->| ->]; [exists false|exists true]; cbn [etext]; unfold dtext; rewrite <- lit_app; (replace (String.append (SpecLiteral.show_digits es) "") with (SpecLiteral.show_digits es); [reflexivity|]); apply lit_inj; rewrite lit_app; symmetry; apply app_nil_r. }
    destruct Q as [u ->]. apply numeric_make; [|intros ->; cbn in K3; lia]. destruct f as [[|x fs]|]; auto. exfalso. destruct F as [-> ->]. discriminate D.
Qed.
Lemma reserved_in w : existsb (String.eqb w) (map fst reserved) = true -> legible w.
Proof. intros H. apply existsb_exists in H. destruct H as (x & H & E). apply String.eqb_eq in E. subst. left. auto. Qed.

Fixpoint words (x : PrefixRead.sexp) : list string := match x with PrefixRead.SA w => [w] | PrefixRead.SL l => flat_map words l end.
Lemma build_words ts : forall cur st res, PrefixRead.build ts cur st = Some res -> forall w,
  In (PrefixRead.TWord w) ts \/ In w (flat_map words cur) \/ In w (flat_map (flat_map words) st) -> In w (flat_map words res).
Proof.
  assert (R : forall l w, In w (flat_map words (rev l)) <-> In w (flat_map words l)).
  { intros l w. rewrite !in_flat_map. split; intros (x & X & Y); exists x; split; auto; [apply in_rev; auto|apply -> in_rev; auto]. }
  induction ts as [|t ts IH]; intros cur st res H w W; cbn [PrefixRead.build] in H.
  - destruct st; [|discriminate]. injection H as <-. apply R. destruct W as [[]|[W|[]]]; auto.
  - destruct t as [| |v].
    + apply (IH _ _ _ H w). cbn [flat_map In] in *. rewrite in_app_iff. destruct W as [[W|W]|W]; [discriminate W|tauto|tauto].
    + destruct st as [|p st]; [discriminate|]. apply (IH _ _ _ H w). cbn [flat_map In words] in *. rewrite in_app_iff in *. rewrite R. destruct W as [[W|W]|W]; [discriminate W|tauto|tauto].
    + apply (IH _ _ _ H w). cbn [flat_map In words app] in *. destruct W as [[W|W]|W]; [injection W as ->; tauto|tauto|tauto].
Qed.
Section Read.
  Variable under : BinarySingleNaN.mode -> string -> bool.
  Variable mid : Dbl.dbl -> Dbl.dbl -> Dbl.dbl.
  Variable sym : string -> nat.
  Lemma atom_legible w t : PrefixRead.rd_atom under mid sym w = Some t -> legible w.
  Proof.
    unfold PrefixRead.rd_atom. destruct (PrefixRead.is_number w) eqn:N; [intros _; right; right; apply is_number_inv; auto|].
    destruct (String.eqb_spec w "true") as [->|_]; [intros _; apply reserved_in; reflexivity|]. destruct (String.eqb_spec w "false") as [->|_]; [intros _; apply reserved_in; reflexivity|].
    destruct (PrefixRead.is_symbol w) eqn:S; [|discriminate]. intros _. right. left. auto.
  Qed.
  Lemma app_legible w l t : PrefixRead.rd_app sym w l = Some t -> legible w.
  Proof.
    unfold PrefixRead.rd_app, PrefixRead.rel_op, PrefixRead.un_op, PrefixRead.bin_op.
    repeat match goal with |- context [String.eqb w ?k] => destruct (String.eqb_spec w k) as [->|_]; [intros _; apply reserved_in; reflexivity|cbn [orb]] end.
    destruct (PrefixRead.is_symbol w) eqn:S; [|discriminate]. intros _. right. left. auto.
  Qed.
  Fixpoint rd_legible (x : PrefixRead.sexp) : forall t, PrefixRead.rd under mid sym x = Some t -> forall w, In w (words x) -> legible w.
  Proof.
    destruct x as [v|l]; intros t H w W.
    - destruct W as [<-|[]]. eapply atom_legible; eauto.
    - destruct l as [|[v|?] args]; try discriminate. cbn [PrefixRead.rd] in H. destruct (fold_right _ _ args) as [l|] eqn:F; [|discriminate]. cbn [words flat_map app In] in W. destruct W as [<-|W]; [eapply app_legible; eauto|].
      clear H. revert l F W. induction args as [|a args IH]; intros l F W; [destruct W|]. cbn [fold_right] in F. cbn [flat_map] in W. destruct (PrefixRead.rd under mid sym a) as [ta|] eqn:A; [|discriminate].
      destruct (fold_right _ _ args) as [l'|] eqn:F'; [|discriminate]. apply in_app_or in W. destruct W as [W|W]; [exact (rd_legible a ta A w W)|]. eapply IH; eauto.
  Qed.
  (** Whatever the reader accepts, the scanner cuts into the same words. *)
  Lemma read_scanned s t : PrefixRead.read_term under mid sym s = Some t -> exists ts l, PrefixRead.lex s "" = Some ts /\ scan (lit s) = Some l /\ Forall2 read_as ts l.
  Proof.
    unfold PrefixRead.read_term. destruct (PrefixRead.lex s "") as [ts|] eqn:L; [|discriminate]. destruct (PrefixRead.build ts [] []) as [[|x [|? ?]]|] eqn:B; try discriminate. intros R.
    destruct (lex_scanned s ts L) as (l & A & F); [|exists ts, l; auto]. intros w W. apply (rd_legible x t R). pose proof (build_words ts [] [] [x] B w (or_introl W)) as Y. cbn [flat_map] in Y. rewrite app_nil_r in Y. auto.
  Qed.
End Read.
