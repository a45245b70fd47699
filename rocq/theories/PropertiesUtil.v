(** * Properties of scoped containers (C25) and options (C26, C27) *)
From Coq Require Import List Bool String Arith ZArith.
From Verif Require Import Dbl Scoped SpecScoped ScopedProofs Options SpecOptions OptionsProofs.
Import ListNotations.

(** C25: for every sequence of push_back / push / pop the vector holds what a vector with snapshots
    holds, and the same calls throw (exactly the pops with no open scope, which change nothing). *)
Theorem C25_scoped_vector : forall (T : Type) (ops : list (sv_op T)),
  sv_vec (fst (sv_run sv_init ops)) = fst (fst (vspec_run ([], []) ops)) /\
  snd (sv_run sv_init ops) = snd (vspec_run ([], []) ops).
Proof. intros T ops. exact (scoped_vector_snapshots ops). Qed.
Print Assumptions C25_scoped_vector.

(** The number [pop] returns is the number of elements removed. *)
Theorem C25_scoped_vector_pop_count : forall (T : Type) (ops : list (sv_op T)) n s',
  sv_pop (fst (sv_run sv_init ops)) = Ok (n, s') ->
  n + List.length (sv_vec s') = List.length (sv_vec (fst (sv_run sv_init ops))).
Proof. intros T ops n s'. exact (sv_pop_count ops n s'). Qed.
Print Assumptions C25_scoped_vector_pop_count.

(** C25 for maps: no undefined behaviour, same exceptions, same content; no key is stored twice. *)
Theorem C25_scoped_map : forall (K V : Type) (eqb : K -> K -> bool), (forall a b, reflect (a = b) (eqb a b)) ->
  forall ops : list (sm_op K V),
  exists s, sm_run eqb (sm_insert eqb) sm_init ops = Some (s, snd (mspec_run eqb true (fun _ => None, []) ops)) /\
    NoDup (map fst (sm_map s)) /\
    forall k, al_find eqb k (sm_map s) = fst (fst (mspec_run eqb true (fun _ => None, []) ops)) k.
Proof. intros K V eqb E ops. exact (scoped_map_snapshots eqb E true (sm_insert eqb) ops (sm_insert_ok eqb E)). Qed.
Print Assumptions C25_scoped_map.

(** C25 for sets. *)
Theorem C25_scoped_set : forall (K : Type) (eqb : K -> K -> bool), (forall a b, reflect (a = b) (eqb a b)) ->
  forall ops : list (sm_op K unit),
  exists s, sm_run eqb (ss_insert eqb) sm_init ops = Some (s, snd (mspec_run eqb false (fun _ => None, []) ops)) /\
    NoDup (map fst (sm_map s)) /\
    forall k, al_find eqb k (sm_map s) = fst (fst (mspec_run eqb false (fun _ => None, []) ops)) k.
Proof. intros K eqb E ops. exact (scoped_map_snapshots eqb E false (ss_insert eqb) ops (ss_insert_ok eqb E)). Qed.
Print Assumptions C25_scoped_set.

(** Overwrites at two depths, a pop that throws, and a clear in between. *)
Example C25_example :
  (let ops := [MInsert 1 10; MPush; MInsert 1 11; MInsert 2 20; MPush; MInsert 1 12; MInsert 2 21; MPop; MInsert 3 30; MPop; MPop; MInsert 4 40] in
   match sm_run Nat.eqb (sm_insert Nat.eqb) sm_init ops with
   | Some (s, ts) => map (fun k => al_find Nat.eqb k (sm_map s)) [1; 2; 3; 4] = [Some 10; None; None; Some 40] /\
                     ts = [false; false; false; false; false; false; false; false; false; false; true; false]
   | None => False
   end) /\
  sv_run sv_init [VPushBack 1; VPush; VPushBack 2; VPush; VPop; VPushBack 3; VPop; VPop] =
    ({| sv_vec := [1]; sv_scopes := [] |}, [false; false; false; false; false; false; false; true]).
Proof. vm_compute. repeat split; reflexivity. Qed.
Example C25_eqb_example : forall a b, reflect (a = b) (Nat.eqb a b).
Proof. exact Nat.eqb_spec. Qed.

(** Outside C25: the ordering the vector offers is not an order. *)
Theorem C25_vector_order_refuted : exists a b : list nat, sv_less Nat.ltb a b = Some true /\ sv_less Nat.ltb b a = Some true.
Proof. exists [2; 1], [1; 2]. split; reflexivity. Qed.
Print Assumptions C25_vector_order_refuted.

(** C26 *)
Theorem C26_option_precedence : forall (T : Type) (default : T) (writes : list (source * T)),
  ov_val (ov_run default writes) = effective default writes.
Proof. intros T d ws. exact (option_precedence d ws). Qed.
Print Assumptions C26_option_precedence.

Example C26_example :
  ov_val (ov_run 0 [(SFile, 1); (SCommandLine, 2); (SFile, 3)]) = 2 /\
  ov_val (ov_run 0 [(SCode, 1); (SCommandLine, 2); (SFile, 3)]) = 1 /\
  ov_val (ov_run 0 [(SFile, 1); (SFile, 3)]) = 3 /\ ov_val (ov_run 0 []) = 0.
Proof. vm_compute. repeat split. Qed.

(** C27, what get-option reports: the text of the last set-option for the key. *)
Theorem C27_get_option_reports_last_set : forall fmt c cmds k,
  get_option fmt k (set_run fmt c cmds) =
  match last_text fmt k cmds with
  | Some t => Some t
  | None => if String.eqb k ":precision" then Some (fmt (ov_val (cf_precision (oc_cfg (set_run fmt c cmds))))) else None
  end.
Proof. intros fmt c cmds k. exact (get_option_last fmt c cmds k). Qed.
Print Assumptions C27_get_option_reports_last_set.

(** C27, the configuration reflects exactly the accepted values. *)
Theorem C27_config_reflects_accepted : forall fmt c cmds,
  ov_val (cf_precision (oc_cfg (set_run fmt c cmds))) = from_file (cf_precision c) (precision_values cmds) /\
  forall f, ov_val (flag_of (oc_cfg (set_run fmt c cmds)) f) = from_file (flag_of c f) (flag_values f cmds).
Proof. intros fmt c cmds. exact (config_reflects fmt c cmds). Qed.
Print Assumptions C27_config_reflects_accepted.

(** C27, which commands are rejected, and that they leave the configuration alone. *)
Theorem C27_rejected_commands : forall fmt s c,
  (set_throws fmt s c = true <->
   match c with
   | SetNum k v => k = ":precision"%string /\ dle v dzero = true
   | SetStr k v => (exists f, In k (spellings f)) /\ v <> "true"%string /\ v <> "false"%string
   end) /\
  (set_throws fmt s c = true -> oc_cfg (set_step fmt s c) = oc_cfg s).
Proof. intros fmt s c. exact (conj (throws_iff fmt s c) (rejected_keeps_config fmt s c)). Qed.
Print Assumptions C27_rejected_commands.

(** C27 restricted to histories whose commands for the option are all accepted, use one spelling, and
    whose configuration is not fixed by the command line or the API.  Missing: the property says this
    for every history; the three theorems below show that it is false there. *)
Theorem C27_get_option_agrees_partial : forall fmt c cmds,
  ((ov_type (cf_precision c) = TDefault \/ ov_type (cf_precision c) = TFile) ->
   (forall x, In x cmds -> cmd_key x = ":precision"%string ->
      match x with SetNum _ v => dle v dzero = false | SetStr _ _ => False end) ->
   get_option fmt ":precision" (set_run fmt c cmds) = Some (fmt (ov_val (cf_precision (oc_cfg (set_run fmt c cmds)))))) /\
  (forall f k t, In k (spellings f) ->
   (ov_type (flag_of c f) = TDefault \/ ov_type (flag_of c f) = TFile) ->
   (forall x, In x cmds -> In (cmd_key x) (spellings f) ->
      match x with SetNum _ _ => False | SetStr k' v => k' = k /\ (v = "true"%string \/ v = "false"%string) end) ->
   get_option fmt k (set_run fmt c cmds) = Some t -> t = bool_text (ov_val (flag_of (oc_cfg (set_run fmt c cmds)) f))).
Proof. intros fmt c cmds. exact (conj (get_precision_agrees fmt c cmds) (fun f k t => get_flag_agrees fmt c cmds f k t)). Qed.
Print Assumptions C27_get_option_agrees_partial.

Example C27_example : forall fmt,
  let cmds := [SetNum ":precision" (dZ 1%Z); SetStr ":polytope" "true"; SetStr ":logic" "x"; SetStr ":polytope" "false"; SetStr ":produce-models" "true"] in
  let s := set_run fmt (plain_config dzero) cmds in
  get_option fmt ":precision" s = Some (fmt (dZ 1%Z)) /\ get_option fmt ":polytope" s = Some "false"%string /\
  ov_val (cf_produce_models (oc_cfg s)) = true /\ get_option fmt ":unknown" s = None.
Proof. intros fmt. repeat split; reflexivity. Qed.

(** Finding: a rejected value is reported by get-option. *)
Theorem C27_rejected_value_reported_refuted : forall fmt p, exists c s,
  s = set_run fmt (plain_config p) [SetStr ":polytope" "true"] /\
  set_throws fmt s c = true /\ get_option fmt ":polytope" s = Some "true"%string /\
  get_option fmt ":polytope" (set_step fmt s c) = Some "maybe"%string.
Proof.
  intros fmt p. exists (SetStr ":polytope" "maybe"), (set_run fmt (plain_config p) [SetStr ":polytope" "true"]).
  repeat split; reflexivity.
Qed.
Print Assumptions C27_rejected_value_reported_refuted.

(** Finding: the keywords [:forall_polytope] and [:local_optimization] (the spellings with an
    underscore, which the other options accept) are stored and reported but never applied. *)
Theorem C27_underscore_spelling_ignored_refuted : forall fmt p,
  let s := set_run fmt (plain_config p) [SetStr ":forall_polytope" "true"; SetStr ":local_optimization" "true"] in
  get_option fmt ":forall_polytope" s = Some "true"%string /\ ov_val (cf_forall_polytope (oc_cfg s)) = false /\
  get_option fmt ":local_optimization" s = Some "true"%string /\ ov_val (cf_local_opt (oc_cfg s)) = false.
Proof. intros fmt p. repeat split; reflexivity. Qed.
Print Assumptions C27_underscore_spelling_ignored_refuted.

(** Finding: a value overridden by the command line is still the one reported, and a symbol given for
    the precision is reported although the precision stays. *)
Theorem C27_overridden_value_reported_refuted : forall fmt p q, dle q dzero = false ->
  let c := with_precision (plain_config p) (ov_cl p (ov_init p)) in
  get_option fmt ":precision" (set_run fmt c [SetNum ":precision" q]) = Some (fmt q) /\
  ov_val (cf_precision (oc_cfg (set_run fmt c [SetNum ":precision" q]))) = p /\
  get_option fmt ":precision" (set_run fmt (plain_config p) [SetStr ":precision" "tiny"]) = Some "tiny"%string /\
  ov_val (cf_precision (oc_cfg (set_run fmt (plain_config p) [SetStr ":precision" "tiny"]))) = p.
Proof.
  intros fmt p q H c. split; [|split; [|split; reflexivity]].
  - rewrite get_option_last. reflexivity.
  - rewrite (proj1 (config_reflects fmt c _)). reflexivity.
Qed.
Print Assumptions C27_overridden_value_reported_refuted.
