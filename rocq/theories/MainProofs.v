(** The command line (C58). *)
From Coq Require Import ZArith Reals Lra Lia List Bool String Ascii Arith.
From Flocq Require Import Core.Core IEEE754.BinarySingleNaN.
From Verif Require Import Dbl DblProofs Interval IntervalProofs Options SpecOptions OptionsProofs Main SpecMain.
Import ListNotations.
Local Open Scope string_scope.

(** ** Extensions *)
Lemma app_assoc_s a : forall b c, (a ++ b) ++ c = a ++ b ++ c.
Proof. induction a as [|x a IH]; intros b c; cbn [append]; [reflexivity|]. now rewrite IH. Qed.
Lemma after_dot_some s : forall e, after_dot s = Some e -> has_extension s e.
Proof.
  induction s as [|c r IH]; intros e E; cbn [after_dot] in E; [discriminate|]. destruct (after_dot r) as [e'|] eqn:Er.
  - assert (e' = e) by congruence. subst e'. destruct (IH e eq_refl) as [[p ->] N]. split; [exists (String c p); reflexivity|exact N].
  - destruct (Ascii.eqb_spec c "."%char) as [->|]; [|discriminate]. assert (r = e) by congruence. subst r. split; [exists ""; reflexivity|].
    clear IH E. induction e as [|x e IHe]; intros a b Hab; [destruct a; discriminate|]. cbn [after_dot] in Er. destruct (after_dot e) eqn:Ee; [discriminate|].
    destruct a as [|y a]; cbn [append] in Hab.
    + assert (x = "."%char) by congruence. subst x. discriminate.
    + injection Hab as _ H. exact (IHe eq_refl a b H).
Qed.
Lemma after_dot_none s : after_dot s = None -> forall p e, s <> p ++ "." ++ e.
Proof.
  induction s as [|c r IH]; intros E p e H; [destruct p; discriminate|]. cbn [after_dot] in E. destruct (after_dot r) eqn:Er; [discriminate|].
  destruct p as [|x p]; cbn [append] in H.
  - assert (c = "."%char) by congruence. subst c. discriminate.
  - injection H as _ H. exact (IH eq_refl p e H).
Qed.
Lemma after_dot_app p : forall e, (forall a b, e <> a ++ "." ++ b) -> after_dot (p ++ "." ++ e) = Some e.
Proof.
  assert (Z : forall e, (forall a b, e <> a ++ "." ++ b) -> after_dot e = None).
  { induction e as [|c e IH]; intros N; [reflexivity|]. cbn [after_dot]. rewrite IH; [|intros a b H; apply (N (String c a) b); cbn; now rewrite H].
    destruct (Ascii.eqb_spec c "."%char) as [->|]; [|reflexivity]. destruct (N "" e eq_refl). }
  intros e N. induction p as [|c p IH].
  - cbn [append after_dot]. rewrite (Z e N). reflexivity.
  - change (match after_dot (p ++ "." ++ e) with Some e => Some e | None => if Ascii.eqb c "."%char then Some (p ++ "." ++ e) else None end = Some e). rewrite IH. reflexivity.
Qed.
Lemma extension_ok s e : e <> "" -> (get_extension s = e <-> has_extension s e).
Proof.
  intros Ne. unfold get_extension. split.
  - destruct (after_dot s) as [e'|] eqn:E; [intros ->; now apply after_dot_some|intros C; destruct (Ne (eq_sym C))].
  - intros [[p ->] N]. now rewrite after_dot_app.
Qed.

(** ** Which front end runs on which input *)
Section Run.
  Variables (fx rd : string -> bool).
  Lemma run_when m fe i c a b : main fx rd m = Ran fe i c a b ->
    cl_version m = false /\ cl_help m = false /\ cl_valid m = true /\ one_input m /\ (cl_in m = true \/ fx (name_of m) = true) /\
    i = parse_file rd (name_of m) /\ c = extract m xconfig_init /\ a = cl_debug_scanning m /\ b = cl_debug_parsing m /\
    (fe = FrontSmt2 /\ (cl_format m = "smt2" \/ (cl_format m = "auto" /\ (get_extension (name_of m) = "smt2" \/ cl_in m = true))) \/
     fe = FrontDr /\ (cl_format m = "dr" \/ (cl_format m = "auto" /\ cl_in m = false /\ get_extension (name_of m) = "dr"))).
  Proof.
    unfold main. destruct (cl_version m) eqn:E1; [discriminate|]. destruct (cl_help m) eqn:E2; [discriminate|]. unfold validate. rewrite E1, E2. cbn [orb].
    destruct (cl_valid m) eqn:E3; cbn [andb negb]; [|discriminate].
    assert (In1 : forall l, (match l with [] => true | _ => false end && negb (cl_in m)) || Nat.ltb 1 (List.length l) = false -> match l with a :: _ => String.eqb a "" | [] => false end = false ->
      (exists a, l = [a] /\ a <> "") \/ (l = [] /\ cl_in m = true)).
    { intros [|x [|y l]] H1 H2; cbn in H1.
      - right. split; [reflexivity|]. destruct (cl_in m); [reflexivity|discriminate].
      - left. exists x. split; [reflexivity|]. intros ->. discriminate.
      - discriminate. }
    destruct ((match cl_args m with [] => true | _ => false end && negb (cl_in m)) || Nat.ltb 1 (List.length (cl_args m))) eqn:E4; cbn [negb]; [discriminate|].
    destruct (match cl_args m with a :: _ => String.eqb a "" | [] => false end) eqn:E5; [discriminate|]. fold (name_of m).
    assert (H1 : one_input m) by exact (In1 _ E4 E5).
    destruct (negb (cl_in m) && negb (fx (name_of m))) eqn:E6; [discriminate|].
    assert (H2 : cl_in m = true \/ fx (name_of m) = true) by (destruct (cl_in m), (fx (name_of m)); cbn in E6; auto; discriminate).
    destruct (String.eqb_spec (cl_format m) "smt2") as [F1|F1]; cbn [orb].
    { intros H. assert (fe = FrontSmt2 /\ i = parse_file rd (name_of m) /\ c = extract m xconfig_init /\ a = cl_debug_scanning m /\ b = cl_debug_parsing m) as (-> & -> & -> & -> & ->) by (repeat split; congruence). repeat (split; [solve [auto]|]). auto. }
    destruct (String.eqb_spec (cl_format m) "auto") as [F2|F2]; cbn [andb].
    - destruct (String.eqb_spec (get_extension (name_of m)) "smt2") as [X1|X1]; cbn [orb].
      { intros H. assert (fe = FrontSmt2 /\ i = parse_file rd (name_of m) /\ c = extract m xconfig_init /\ a = cl_debug_scanning m /\ b = cl_debug_parsing m) as (-> & -> & -> & -> & ->) by (repeat split; congruence). repeat (split; [solve [auto]|]). auto 8. }
      destruct (cl_in m) eqn:E7.
      { intros H. assert (fe = FrontSmt2 /\ i = parse_file rd (name_of m) /\ c = extract m xconfig_init /\ a = cl_debug_scanning m /\ b = cl_debug_parsing m) as (-> & -> & -> & -> & ->) by (repeat split; congruence). repeat (split; [solve [auto]|]). auto 8. }
      rewrite F2. change (String.eqb "auto" "dr") with false. cbn [orb]. destruct (String.eqb_spec (get_extension (name_of m)) "dr") as [X2|X2]; [|discriminate].
      intros H. assert (fe = FrontDr /\ i = parse_file rd (name_of m) /\ c = extract m xconfig_init /\ a = cl_debug_scanning m /\ b = cl_debug_parsing m) as (-> & -> & -> & -> & ->) by (repeat split; congruence). repeat (split; [solve [auto]|]). auto 8.
    - destruct (String.eqb_spec (cl_format m) "dr") as [F3|F3]; cbn [orb]; [|discriminate].
      intros H. assert (fe = FrontDr /\ i = parse_file rd (name_of m) /\ c = extract m xconfig_init /\ a = cl_debug_scanning m /\ b = cl_debug_parsing m) as (-> & -> & -> & -> & ->) by (repeat split; congruence). repeat (split; [solve [auto]|]). auto 8.
  Qed.
  Lemma stop_code m k msg : main fx rd m = Stop k msg -> (k = 0%Z /\ (cl_version m = true \/ cl_help m = true)) \/ (k = 1%Z /\ cl_version m = false /\ cl_help m = false).
  Proof.
    unfold main. destruct (cl_version m) eqn:E1; [intros H; left; split; [congruence|auto]|]. destruct (cl_help m) eqn:E2; [intros H; left; split; [congruence|auto]|].
    intros H. right. split; [|auto]. repeat (match type of H with (if ?b then _ else _) = _ => destruct b end; try congruence).
  Qed.
  (** A valid command line with one input and a known kind runs. *)
  Lemma runs m : cl_version m = false -> cl_help m = false -> cl_valid m = true -> one_input m -> (cl_in m = true \/ fx (name_of m) = true) ->
    (cl_format m = "smt2" \/ cl_format m = "dr" \/ (cl_format m = "auto" /\ (cl_in m = true \/ get_extension (name_of m) = "smt2" \/ get_extension (name_of m) = "dr"))) ->
    exists fe i c a b, main fx rd m = Ran fe i c a b.
  Proof.
    intros E1 E2 E3 H1 H2 H3. unfold main, validate. rewrite E1, E2, E3. cbn [orb andb].
    assert (X : (match cl_args m with [] => true | _ => false end && negb (cl_in m)) || Nat.ltb 1 (List.length (cl_args m)) = false /\ match cl_args m with a :: _ => String.eqb a "" | [] => false end = false).
    { destruct H1 as [(a & -> & Na)|[-> ->]]; cbn; [|auto]. split; [reflexivity|]. destruct (String.eqb_spec a ""); [contradiction|reflexivity]. }
    destruct X as [-> ->]. cbn [negb]. fold (name_of m). replace (negb (cl_in m) && negb (fx (name_of m))) with false by (destruct H2 as [-> | ->]; [reflexivity|destruct (cl_in m); reflexivity]).
    match goal with |- context [if ?b then Ran FrontSmt2 _ _ _ _ else _] => destruct b eqn:B1 end; [repeat eexists|].
    match goal with |- context [if ?b then Ran FrontDr _ _ _ _ else _] => destruct b eqn:B2 end; [repeat eexists|]. exfalso.
    destruct H3 as [F|[F|[F H3]]]; rewrite F in *; cbn in B1, B2; try discriminate. destruct H3 as [F'|[F'|F']]; rewrite F' in *; cbn in B1, B2; rewrite ?orb_true_r in *; discriminate.
  Qed.

  (** ** The options *)
  Lemma take_val {T} (g : option T) (d : T) vs : from_file (take g (ov_init d)) vs = in_force g vs d.
  Proof. destruct g; reflexivity. Qed.
  Lemma run_options m fe i c a b : main fx rd m = Ran fe i c a b -> forall fmt cmds, let f := oc_cfg (set_run fmt (xc_file c) cmds) in
    ov_val (cf_precision f) = in_force (cl_precision m) (precision_values cmds) (dtenth 3) /\
    (forall g, ov_val (flag_of f g) = in_force (if flag_given m g then Some true else None) (flag_values g cmds) false) /\
    ov_val (xc_dump c) = cl_dump m /\ ov_val (xc_jobs c) = in_force (cl_jobs m) [] 1%Z /\
    ov_val (xc_ftol_rel c) = in_force (cl_ftol_rel m) [] (dtenth 6) /\ ov_val (xc_ftol_abs c) = in_force (cl_ftol_abs m) [] (dtenth 6) /\
    ov_val (xc_maxeval c) = in_force (cl_maxeval m) [] 100%Z /\ ov_val (xc_maxtime c) = in_force (cl_maxtime m) [] (dtenth 2) /\
    ov_val (xc_phase c) = in_force (cl_phase m) [] 2%Z /\
    forall s, cl_seed m = Some s -> (0 <= s < 2 ^ 32)%Z -> ov_val (xc_seed c) = s.
  Proof.
    intros H fmt cmds f. apply run_when in H. destruct H as (_ & _ & _ & _ & _ & _ & -> & _). destruct (config_reflects fmt (xc_file (extract m xconfig_init)) cmds) as [P F].
    split; [unfold f; rewrite P; apply take_val|]. split.
    { intros g. unfold f. rewrite F. destruct g; cbn [flag_of xc_file extract cf_polytope cf_forall_polytope cf_local_opt cf_worklist cf_produce_models cf_smtlib2 xconfig_init flag_given]; rewrite take_val; reflexivity. }
    cbn [extract xc_dump xc_jobs xc_ftol_rel xc_ftol_abs xc_maxeval xc_maxtime xc_phase xc_seed xconfig_init].
    split; [destruct (cl_dump m); reflexivity|]. split; [destruct (cl_jobs m); reflexivity|]. split; [destruct (cl_ftol_rel m); reflexivity|]. split; [destruct (cl_ftol_abs m); reflexivity|].
    split; [destruct (cl_maxeval m); reflexivity|]. split; [destruct (cl_maxtime m); reflexivity|]. split; [destruct (cl_phase m); reflexivity|].
    intros s -> Hs. cbn [option_map take ov_cl ov_init ov_type ov_val]. apply Z.mod_small. exact Hs.
  Qed.
  Definition positive (p : dbl) : Prop := is_finite p = true /\ (0 < B2R p)%R.
  Lemma above_zero v : is_finite v = true -> ext_lt (d2e dzero) (d2e v) -> (0 < B2R v)%R.
  Proof. intros F L. assert (E : d2e v = Fin (B2R v)) by (destruct v; try discriminate F; reflexivity). rewrite E in L. unfold ext_lt in L. cbn in L. lra. Qed.
  Lemma dtenth3_pos : positive (dtenth 3).
  Proof.
    assert (F : is_finite (dtenth 3) = true) by (vm_compute; reflexivity). assert (L : dlt dzero (dtenth 3) = true) by (vm_compute; reflexivity).
    split; [exact F|]. apply dlt_true in L. apply above_zero; auto.
  Qed.
  Lemma last_or {T} (P : T -> Prop) (l : list T) d : (forall x, In x l -> P x) -> P d -> P (last l d).
  Proof. intros H Hd. induction l as [|a l IH]; [exact Hd|]. destruct l; [apply H; left; reflexivity|]. apply IH. intros x Hx. apply H. right. exact Hx. Qed.
  Lemma run_precision_pos m fe i c a b : main fx rd m = Ran fe i c a b -> validated m -> forall fmt cmds, (forall k v, In (SetNum k v) cmds -> is_finite v = true) ->
    positive (ov_val (cf_precision (oc_cfg (set_run fmt (xc_file c) cmds)))).
  Proof.
    intros H V fmt cmds Hc. rewrite (proj1 (run_options m fe i c a b H fmt cmds)). apply run_when in H. destruct H as (_ & _ & Ev & _).
    unfold in_force. destruct (cl_precision m) as [p|] eqn:E; [exact (proj1 (V Ev) p E)|]. apply last_or; [|exact dtenth3_pos].
    clear - Hc. induction cmds as [|[k v|k v] cmds IH]; intros x Hx; cbn [precision_values] in Hx; [destruct Hx| |apply IH; auto; intros; eapply Hc; right; eauto].
    apply in_app_iff in Hx. destruct Hx as [Hx|Hx]; [|apply IH; auto; intros; eapply Hc; right; eauto].
    destruct (String.eqb k ":precision" && negb (dle v dzero)) eqn:E; [|destruct Hx]. destruct Hx as [<-|[]]. apply andb_true_iff in E. destruct E as [_ E]. apply negb_true_iff in E.
    assert (F : is_finite v = true) by (eapply Hc; left; reflexivity). split; [exact F|].
    assert (L : ext_lt (d2e dzero) (d2e v)) by (apply dle_false; [destruct v; try discriminate F; reflexivity|reflexivity|exact E]).
    apply above_zero; auto.
  Qed.
End Run.
Lemma runs_iff fx rd m : validated m -> ((exists fe i c a b, main fx rd m = Ran fe i c a b) <->
  cl_version m = false /\ cl_help m = false /\ cl_valid m = true /\ one_input m /\ (cl_in m = true \/ fx (name_of m) = true) /\
  (cl_format m = "auto" -> cl_in m = true \/ has_extension (name_of m) "smt2" \/ has_extension (name_of m) "dr")).
Proof.
  intros V. split.
  - intros (fe & i & c & a & b & H). apply run_when in H. destruct H as (H1 & H2 & H3 & H4 & H5 & _ & _ & _ & _ & H6). repeat (split; [solve [auto]|]). intros F. rewrite <- !extension_ok by discriminate.
    destruct H6 as [[_ [X|[_ [X|X]]]]|[_ [X|(_ & _ & X)]]]; auto; rewrite F in X; discriminate.
  - intros (H1 & H2 & H3 & H4 & H5 & H6). apply runs; auto. destruct (proj2 (V H3)) as [F|[F|F]]; auto. right. right. split; [exact F|]. specialize (H6 F). rewrite <- !extension_ok in H6 by discriminate. exact H6.
Qed.
Lemma front_end fx rd m fe i c a b : main fx rd m = Ran fe i c a b ->
  (cl_format m = "smt2" -> fe = FrontSmt2) /\ (cl_format m = "dr" -> fe = FrontDr) /\
  (cl_format m = "auto" -> cl_in m = false -> (fe = FrontSmt2 <-> has_extension (name_of m) "smt2") /\ (fe = FrontDr <-> has_extension (name_of m) "dr")) /\
  (cl_format m = "auto" -> cl_in m = true -> fe = FrontSmt2) /\ a = cl_debug_scanning m /\ b = cl_debug_parsing m.
Proof.
  intros H. apply run_when in H. destruct H as (_ & _ & _ & _ & _ & _ & _ & -> & -> & H). rewrite <- !extension_ok by discriminate.
  split; [intros F; destruct H as [[-> _]|[_ [X|(X & _)]]]; auto; rewrite F in X; discriminate|].
  split; [intros F; destruct H as [[_ [X|(X & _)]]|[-> _]]; auto; rewrite F in X; discriminate|]. split.
  - intros F N. rewrite F, N in H. destruct H as [[-> [X|(_ & [X|X])]]|[-> [X|(_ & _ & X)]]]; try discriminate; rewrite X; (split; split; intros; auto; discriminate).
  - split; [|split; reflexivity]. intros F N. destruct H as [[-> _]|[_ [X|(_ & X & _)]]]; auto; [rewrite F in X; discriminate|congruence].
Qed.
Lemma which_input fx rd m fe i c a b : main fx rd m = Ran fe i c a b ->
  (cl_args m = [] -> i = Stdin) /\ (forall f, cl_args m = [f] -> rd f = true -> i = OfFile f) /\ (i = Nothing -> exists f, cl_args m = [f] /\ rd f = false).
Proof.
  intros H. apply run_when in H. destruct H as (_ & _ & _ & H4 & _ & -> & _). unfold parse_file, name_of. destruct H4 as [(f & E & Nf)|[E Ei]]; rewrite E.
  - assert (X : String.eqb f "" = false) by (destruct (String.eqb_spec f ""); [contradiction|reflexivity]). rewrite X. split; [discriminate|]. split.
    + intros g Eg Hr. assert (f = g) by congruence. subst g. rewrite Hr. reflexivity.
    + destruct (rd f) eqn:Er; [discriminate|]. intros _. exists f. auto.
  - cbn. split; [reflexivity|]. split; [discriminate|]. discriminate.
Qed.
Lemma exit_ok fx rd m : (exit_code (main fx rd m) = 0%Z \/ exit_code (main fx rd m) = 1%Z) /\
  (exit_code (main fx rd m) = 0%Z <-> cl_version m = true \/ cl_help m = true \/ exists fe i c a b, main fx rd m = Ran fe i c a b).
Proof.
  destruct (main fx rd m) as [k msg|fe i c a b] eqn:E; cbn [exit_code].
  - destruct (stop_code fx rd m k msg E) as [[-> H]|(-> & H1 & H2)]; (split; [auto|]); split; try (intros; lia).
    + intros _. destruct H; auto.
    + intros [X|[X|(fe & i & c & a & b & X)]]; congruence.
  - split; [auto|]. split; [intros _|reflexivity]. right. right. repeat eexists.
Qed.

