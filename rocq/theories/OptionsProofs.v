(** * Proofs about options *)
From Coq Require Import List Bool String.
From Verif Require Import Dbl Options SpecOptions.
Import ListNotations.

(** ** Precedence *)
Section P.
  Context {T : Type}.

  Lemma last_from_snoc s (ws : list (source * T)) w :
    last_from s (ws ++ [w]) = if src_eqb s (fst w) then Some (snd w) else last_from s ws.
  Proof.
    induction ws as [|[s' x] ws IH]; cbn [app last_from].
    - destruct w as [s' x]. cbn [fst snd]. destruct (src_eqb s s'); reflexivity.
    - rewrite IH. destruct (src_eqb s (fst w)); reflexivity.
  Qed.

  Definition type_of (ws : list (source * T)) : otype :=
    match last_from SCode ws, last_from SCommandLine ws, last_from SFile ws with
    | Some _, _, _ => TCode
    | None, Some _, _ => TCommandLine
    | None, None, Some _ => TFile
    | None, None, None => TDefault
    end.

  Lemma ov_run_spec (d : T) ws : ov_val (ov_run d ws) = effective d ws /\ ov_type (ov_run d ws) = type_of ws.
  Proof.
    unfold ov_run. induction ws as [|w ws [IV IT]] using rev_ind; [split; reflexivity|].
    rewrite fold_left_app. cbn [fold_left]. set (o := fold_left ov_write ws (ov_init d)) in *. clearbody o.
    destruct w as [s x]. destruct o as [v t]. cbn [ov_val ov_type] in *. subst v t.
    unfold ov_write, effective, type_of. rewrite !last_from_snoc. cbn [fst snd].
    destruct s; cbn [src_eqb]; unfold ov_file, ov_cl, ov_assign; cbn [ov_type ov_val]; unfold effective;
      destruct (last_from SCode ws), (last_from SCommandLine ws), (last_from SFile ws); split; reflexivity.
  Qed.

  Lemma option_precedence (d : T) ws : ov_val (ov_run d ws) = effective d ws.
  Proof. apply ov_run_spec. Qed.

  Lemma last_shift (vs : list T) : forall v w, last (v :: vs) w = last vs v.
  Proof. induction vs as [|x vs IH]; intros v w; [reflexivity|]. change (last (v :: x :: vs) w) with (last (x :: vs) w). now rewrite !IH. Qed.
  Definition file_run (o : oval T) (vs : list T) : oval T := fold_left (fun o v => ov_file v o) vs o.
  Lemma file_run_val vs : forall o, ov_val (file_run o vs) = from_file o vs.
  Proof.
    induction vs as [|v vs IH]; intros o; cbn [file_run fold_left].
    - unfold from_file. destruct (ov_type o); reflexivity.
    - fold (file_run (ov_file v o) vs). rewrite IH. unfold from_file, ov_file.
      destruct o as [w t]. destruct t; cbn [ov_type ov_val]; try reflexivity; now rewrite last_shift.
  Qed.
End P.

(** ** set-option *)
Section S.
  Variable fmt : dbl -> string.

  Lemma store_opts c s : oc_opts (set_step fmt s c) = (cmd_key c, cmd_text fmt c) :: oc_opts s.
  Proof.
    destruct c as [k v|k v]; cbn [set_step cmd_key cmd_text].
    - unfold set_num. destruct (String.eqb k ":precision"); [destruct (dle v dzero)|]; reflexivity.
    - unfold set_str, set_flag. repeat (match goal with |- context [if ?b then _ else _] => destruct b end); try reflexivity;
      destruct (parse_bool v); reflexivity.
  Qed.

  Lemma last_text_snoc k cmds c :
    last_text fmt k (cmds ++ [c]) = if String.eqb (cmd_key c) k then Some (cmd_text fmt c) else last_text fmt k cmds.
  Proof.
    induction cmds as [|c' cmds IH]; cbn [app last_text].
    - destruct (String.eqb (cmd_key c) k); reflexivity.
    - rewrite IH. destruct (String.eqb (cmd_key c) k); reflexivity.
  Qed.

  Lemma lookup_run c cmds k : lookup k (oc_opts (set_run fmt c cmds)) = last_text fmt k cmds.
  Proof.
    unfold set_run. induction cmds as [|x cmds IH] using rev_ind; [reflexivity|].
    rewrite fold_left_app. cbn [fold_left]. rewrite store_opts. cbn [lookup]. rewrite last_text_snoc.
    rewrite String.eqb_sym. destruct (String.eqb (cmd_key x) k); [reflexivity|exact IH].
  Qed.

  Lemma get_option_last c cmds k :
    get_option fmt k (set_run fmt c cmds) =
    match last_text fmt k cmds with
    | Some t => Some t
    | None => if String.eqb k ":precision" then Some (fmt (ov_val (cf_precision (oc_cfg (set_run fmt c cmds))))) else None
    end.
  Proof. unfold get_option. rewrite lookup_run. destruct (last_text fmt k cmds); reflexivity. Qed.

  (** One command's effect on the configuration. *)
  Lemma step_flag c s f : flag_of (oc_cfg (set_step fmt s c)) f = file_run (flag_of (oc_cfg s) f) (flag_values f [c]).
  Proof.
    destruct c as [k v|k v]; cbn [set_step flag_values app].
    - unfold set_num. destruct (String.eqb k ":precision"); [destruct (dle v dzero)|]; destruct f; reflexivity.
    - rewrite app_nil_r. unfold set_str, set_flag, is_spelling.
      destruct (String.eqb_spec k ":polytope") as [->|N1]; [destruct f; cbn; unfold parse_bool; destruct (String.eqb v "true"), (String.eqb v "false"); reflexivity|].
      destruct (String.eqb_spec k ":forall-polytope") as [->|N2]; [destruct f; cbn; unfold parse_bool; destruct (String.eqb v "true"), (String.eqb v "false"); reflexivity|].
      destruct (String.eqb_spec k "forall_polytope") as [->|N3]; [destruct f; cbn; unfold parse_bool; destruct (String.eqb v "true"), (String.eqb v "false"); reflexivity|].
      destruct (String.eqb_spec k ":local-optimization") as [->|N4]; [destruct f; cbn; unfold parse_bool; destruct (String.eqb v "true"), (String.eqb v "false"); reflexivity|].
      destruct (String.eqb_spec k "local_optimization") as [->|N5]; [destruct f; cbn; unfold parse_bool; destruct (String.eqb v "true"), (String.eqb v "false"); reflexivity|].
      destruct (String.eqb_spec k ":worklist-fixpoint") as [->|N6]; [destruct f; cbn; unfold parse_bool; destruct (String.eqb v "true"), (String.eqb v "false"); reflexivity|].
      destruct (String.eqb_spec k ":worklist_fixpoint") as [->|N7]; [destruct f; cbn; unfold parse_bool; destruct (String.eqb v "true"), (String.eqb v "false"); reflexivity|].
      destruct (String.eqb_spec k ":produce-models") as [->|N8]; [destruct f; cbn; unfold parse_bool; destruct (String.eqb v "true"), (String.eqb v "false"); reflexivity|].
      destruct (String.eqb_spec k ":produce_models") as [->|N9]; [destruct f; cbn; unfold parse_bool; destruct (String.eqb v "true"), (String.eqb v "false"); reflexivity|].
      destruct (String.eqb_spec k ":smtlib2-compliant") as [->|N10]; [destruct f; cbn; unfold parse_bool; destruct (String.eqb v "true"), (String.eqb v "false"); reflexivity|].
      destruct (String.eqb_spec k ":smtlib2_compliant") as [->|N11]; [destruct f; cbn; unfold parse_bool; destruct (String.eqb v "true"), (String.eqb v "false"); reflexivity|].
      cbn [orb fst].
      assert (E : existsb (String.eqb k) (spellings f) = false).
      { destruct f; cbn [spellings existsb]; repeat (match goal with H : k <> ?x |- context [String.eqb k ?x] =>
          rewrite (proj2 (String.eqb_neq k x) H) end); reflexivity. }
      rewrite E. reflexivity.
  Qed.
  Lemma step_precision c s : cf_precision (oc_cfg (set_step fmt s c)) = file_run (cf_precision (oc_cfg s)) (precision_values [c]).
  Proof.
    destruct c as [k v|k v]; cbn [set_step precision_values app].
    - rewrite app_nil_r. unfold set_num. destruct (String.eqb k ":precision"); [destruct (dle v dzero)|]; reflexivity.
    - unfold set_str, set_flag. repeat (match goal with |- context [if ?b then _ else _] => destruct b end); try reflexivity;
      destruct (parse_bool v); reflexivity.
  Qed.

  Lemma flag_values_app f a b : flag_values f (a ++ b) = flag_values f a ++ flag_values f b.
  Proof. induction a as [|[k v|k v] a IH]; cbn [app flag_values]; [reflexivity|exact IH|]. now rewrite IH, app_assoc. Qed.
  Lemma precision_values_app a b : precision_values (a ++ b) = precision_values a ++ precision_values b.
  Proof. induction a as [|[k v|k v] a IH]; cbn [app precision_values]; [reflexivity| |exact IH]. now rewrite IH, app_assoc. Qed.

  Lemma run_flag c cmds f : flag_of (oc_cfg (set_run fmt c cmds)) f = file_run (flag_of c f) (flag_values f cmds).
  Proof.
    unfold set_run. induction cmds as [|x cmds IH] using rev_ind; [reflexivity|].
    rewrite fold_left_app. cbn [fold_left]. rewrite step_flag, IH, flag_values_app. unfold file_run. now rewrite fold_left_app.
  Qed.
  Lemma run_precision c cmds : cf_precision (oc_cfg (set_run fmt c cmds)) = file_run (cf_precision c) (precision_values cmds).
  Proof.
    unfold set_run. induction cmds as [|x cmds IH] using rev_ind; [reflexivity|].
    rewrite fold_left_app. cbn [fold_left]. rewrite step_precision, IH, precision_values_app. unfold file_run. now rewrite fold_left_app.
  Qed.

  Lemma config_reflects c cmds :
    ov_val (cf_precision (oc_cfg (set_run fmt c cmds))) = from_file (cf_precision c) (precision_values cmds) /\
    forall f, ov_val (flag_of (oc_cfg (set_run fmt c cmds)) f) = from_file (flag_of c f) (flag_values f cmds).
  Proof. split; [rewrite run_precision|intros f; rewrite run_flag]; apply file_run_val. Qed.

  (** A rejected command leaves the configuration alone. *)
  Lemma rejected_keeps_config s c : set_throws fmt s c = true -> oc_cfg (set_step fmt s c) = oc_cfg s.
  Proof.
    destruct c as [k v|k v]; cbn [set_throws set_step].
    - unfold set_num. destruct (String.eqb k ":precision"); [destruct (dle v dzero)|]; cbn; intros; congruence.
    - unfold set_str, set_flag. repeat (match goal with |- context [if ?b then _ else _] => destruct b end); cbn; try congruence;
      destruct (parse_bool v); cbn; congruence.
  Qed.
  Lemma throws_iff s c : set_throws fmt s c = true <->
    match c with
    | SetNum k v => k = ":precision"%string /\ dle v dzero = true
    | SetStr k v => (exists f, In k (spellings f)) /\ v <> "true"%string /\ v <> "false"%string
    end.
  Proof.
    destruct c as [k v|k v]; cbn [set_throws].
    - unfold set_num. destruct (String.eqb_spec k ":precision"); [destruct (dle v dzero)|]; cbn; intuition congruence.
    - assert (P : parse_bool v = None <-> v <> "true"%string /\ v <> "false"%string).
      { unfold parse_bool. destruct (String.eqb_spec v "true"), (String.eqb_spec v "false"); intuition congruence. }
      assert (F : forall s1 u g, snd (set_flag k v s1 u g) = true <-> v <> "true"%string /\ v <> "false"%string).
      { intros. unfold set_flag. rewrite <- P. destruct (parse_bool v); cbn; intuition congruence. }
      unfold set_str.
      destruct (String.eqb_spec k ":polytope") as [->|N1]; [rewrite F; split; [split; [exists Polytope; cbn; auto|]|]; tauto|].
      destruct (String.eqb_spec k ":forall-polytope") as [->|N2]; [cbn [orb]; rewrite F; split; [split; [exists ForallPolytope; cbn; auto|]|]; tauto|].
      destruct (String.eqb_spec k "forall_polytope") as [->|N3]; [cbn [orb]; rewrite F; split; [split; [exists ForallPolytope; cbn; auto|]|]; tauto|].
      destruct (String.eqb_spec k ":local-optimization") as [->|N4]; [cbn [orb]; rewrite F; split; [split; [exists LocalOptimization; cbn; auto|]|]; tauto|].
      destruct (String.eqb_spec k "local_optimization") as [->|N5]; [cbn [orb]; rewrite F; split; [split; [exists LocalOptimization; cbn; auto|]|]; tauto|].
      destruct (String.eqb_spec k ":worklist-fixpoint") as [->|N6]; [cbn [orb]; rewrite F; split; [split; [exists WorklistFixpoint; cbn; auto|]|]; tauto|].
      destruct (String.eqb_spec k ":worklist_fixpoint") as [->|N7]; [cbn [orb]; rewrite F; split; [split; [exists WorklistFixpoint; cbn; auto|]|]; tauto|].
      destruct (String.eqb_spec k ":produce-models") as [->|N8]; [cbn [orb]; rewrite F; split; [split; [exists ProduceModels; cbn; auto|]|]; tauto|].
      destruct (String.eqb_spec k ":produce_models") as [->|N9]; [cbn [orb]; rewrite F; split; [split; [exists ProduceModels; cbn; auto|]|]; tauto|].
      destruct (String.eqb_spec k ":smtlib2-compliant") as [->|N10]; [cbn [orb]; rewrite F; split; [split; [exists Smtlib2Compliant; cbn; auto|]|]; tauto|].
      destruct (String.eqb_spec k ":smtlib2_compliant") as [->|N11]; [cbn [orb]; rewrite F; split; [split; [exists Smtlib2Compliant; cbn; auto|]|]; tauto|].
      cbn [orb snd]. split; [discriminate|]. intros [[f I] _].
      destruct f; cbn [spellings In] in I; intuition congruence.
  Qed.

  (** Histories in which get-option and the configuration agree. *)
  Lemma precision_values_last cmds : (forall c, In c cmds -> cmd_key c = ":precision"%string ->
      match c with SetNum _ v => dle v dzero = false | SetStr _ _ => False end) ->
    match last_text fmt ":precision" cmds with
    | Some t => exists v, t = fmt v /\ forall d, last (precision_values cmds) d = v
    | None => precision_values cmds = []
    end.
  Proof.
    induction cmds as [|x cmds IH] using rev_ind; intros H; [reflexivity|].
    rewrite last_text_snoc, precision_values_app.
    assert (Hx : In x (cmds ++ [x])) by (apply in_or_app; right; left; reflexivity). specialize (H x Hx) as Hx'.
    destruct x as [k v|k v]; cbn [cmd_key cmd_text precision_values] in *.
    - destruct (String.eqb_spec k ":precision") as [->|N]; cbn [andb app].
      + rewrite (Hx' eq_refl). cbn [negb app]. exists v. split; [reflexivity|]. intros d. apply last_last.
      + rewrite !app_nil_r. apply IH. intros c I. apply H. apply in_or_app. auto.
    - destruct (String.eqb_spec k ":precision") as [->|N]; [destruct (Hx' eq_refl)|].
      rewrite app_nil_r. apply IH. intros c I. apply H. apply in_or_app. auto.
  Qed.
  Lemma get_precision_agrees c cmds :
    (ov_type (cf_precision c) = TDefault \/ ov_type (cf_precision c) = TFile) ->
    (forall x, In x cmds -> cmd_key x = ":precision"%string ->
      match x with SetNum _ v => dle v dzero = false | SetStr _ _ => False end) ->
    get_option fmt ":precision" (set_run fmt c cmds) = Some (fmt (ov_val (cf_precision (oc_cfg (set_run fmt c cmds))))).
  Proof.
    intros Ty H. rewrite get_option_last. pose proof (precision_values_last cmds H) as P.
    destruct (last_text fmt ":precision" cmds) as [t|]; [|reflexivity].
    destruct P as [v [-> L]]. rewrite (proj1 (config_reflects c cmds)). unfold from_file.
    destruct Ty as [-> | ->]; now rewrite L.
  Qed.

  Definition bool_text (b : bool) : string := if b then "true" else "false".
  Lemma flag_values_last f k cmds : In k (spellings f) -> (forall c, In c cmds -> In (cmd_key c) (spellings f) ->
      match c with SetNum _ _ => False | SetStr k' v => k' = k /\ (v = "true"%string \/ v = "false"%string) end) ->
    match last_text fmt k cmds with
    | Some t => exists b, t = bool_text b /\ forall d, last (flag_values f cmds) d = b
    | None => flag_values f cmds = []
    end.
  Proof.
    intros Ik. induction cmds as [|x cmds IH] using rev_ind; intros H; [reflexivity|].
    rewrite last_text_snoc, flag_values_app.
    assert (Hx : In x (cmds ++ [x])) by (apply in_or_app; right; left; reflexivity). specialize (H x Hx) as Hx'.
    assert (IH' := IH (fun c I => H c (in_or_app _ _ _ (or_introl I)))).
    destruct x as [k' v|k' v]; cbn [cmd_key cmd_text flag_values] in *.
    - destruct (String.eqb_spec k' k) as [->|N]; [destruct (Hx' Ik)|]. rewrite app_nil_r. exact IH'.
    - rewrite app_nil_r. destruct (is_spelling f k') eqn:Es.
      + assert (I' : In k' (spellings f)).
        { unfold is_spelling in Es. apply existsb_exists in Es. destruct Es as [z [Iz Ez]]. apply String.eqb_eq in Ez. now subst. }
        destruct (Hx' I') as [-> V]. rewrite String.eqb_refl. destruct V as [-> | ->]; cbn [String.eqb Ascii.eqb Bool.eqb andb app].
        * exists true. split; [reflexivity|]. intros d. apply last_last.
        * exists false. split; [reflexivity|]. intros d. apply last_last.
      + rewrite app_nil_r. destruct (String.eqb_spec k' k) as [->|N]; [|exact IH'].
        exfalso. assert (is_spelling f k = true); [|congruence]. apply existsb_exists. exists k. split; [exact Ik|apply String.eqb_refl].
  Qed.
  Lemma get_flag_agrees c cmds f k t : In k (spellings f) ->
    (ov_type (flag_of c f) = TDefault \/ ov_type (flag_of c f) = TFile) ->
    (forall x, In x cmds -> In (cmd_key x) (spellings f) ->
      match x with SetNum _ _ => False | SetStr k' v => k' = k /\ (v = "true"%string \/ v = "false"%string) end) ->
    get_option fmt k (set_run fmt c cmds) = Some t -> t = bool_text (ov_val (flag_of (oc_cfg (set_run fmt c cmds)) f)).
  Proof.
    intros Ik Ty H G. rewrite get_option_last in G. pose proof (flag_values_last f k cmds Ik H) as P.
    destruct (last_text fmt k cmds) as [t'|].
    - injection G as <-. destruct P as [b [-> L]]. rewrite (proj2 (config_reflects c cmds)). unfold from_file.
      destruct Ty as [-> | ->]; now rewrite L.
    - exfalso. destruct (String.eqb_spec k ":precision") as [->|N]; [|discriminate].
      destruct f; cbn [spellings In] in Ik; intuition discriminate.
  Qed.
End S.

(** ** Where they disagree *)
Definition plain_config (p : dbl) : config :=
  {| cf_precision := ov_init p; cf_polytope := ov_init false; cf_forall_polytope := ov_init false; cf_local_opt := ov_init false;
     cf_worklist := ov_init false; cf_produce_models := ov_init false; cf_smtlib2 := ov_init false |}.
