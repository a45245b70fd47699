(** * Specification of option precedence and of set-option / get-option *)
From Coq Require Import List Bool String.
From Verif Require Import Dbl Options.
Import ListNotations.

Definition src_eqb (a b : source) : bool :=
  match a, b with SFile, SFile | SCommandLine, SCommandLine | SCode, SCode => true | _, _ => false end.

(** The last value a source wrote. *)
Fixpoint last_from {T} (s : source) (ws : list (source * T)) : option T :=
  match ws with
  | [] => None
  | (s', x) :: ws' => match last_from s ws' with Some y => Some y | None => if src_eqb s s' then Some x else None end
  end.

(** API over command line over file over default. *)
Definition effective {T} (d : T) (ws : list (source * T)) : T :=
  match last_from SCode ws with
  | Some x => x
  | None => match last_from SCommandLine ws with
            | Some x => x
            | None => match last_from SFile ws with Some x => x | None => d end
            end
  end.

Local Open Scope string_scope.
Section S.
  Variable fmt : dbl -> string.

  Definition cmd_key (c : set_cmd) : string := match c with SetNum k _ | SetStr k _ => k end.
  Definition cmd_text (c : set_cmd) : string := match c with SetNum _ v => fmt v | SetStr _ v => v end.

  (** Text of the last command that mentions the key. *)
  Fixpoint last_text (k : string) (cmds : list set_cmd) : option string :=
    match cmds with
    | [] => None
    | c :: r => match last_text k r with Some t => Some t | None => if String.eqb (cmd_key c) k then Some (cmd_text c) else None end
    end.

  (** The Boolean options and the spellings the program accepts for them. *)
  Inductive flag := Polytope | ForallPolytope | LocalOptimization | WorklistFixpoint | ProduceModels | Smtlib2Compliant.
  Definition spellings (f : flag) : list string :=
    match f with
    | Polytope => [":polytope"]
    | ForallPolytope => [":forall-polytope"; "forall_polytope"]
    | LocalOptimization => [":local-optimization"; "local_optimization"]
    | WorklistFixpoint => [":worklist-fixpoint"; ":worklist_fixpoint"]
    | ProduceModels => [":produce-models"; ":produce_models"]
    | Smtlib2Compliant => [":smtlib2-compliant"; ":smtlib2_compliant"]
    end.
  Definition flag_of (c : config) (f : flag) : oval bool :=
    match f with
    | Polytope => cf_polytope c | ForallPolytope => cf_forall_polytope c | LocalOptimization => cf_local_opt c
    | WorklistFixpoint => cf_worklist c | ProduceModels => cf_produce_models c | Smtlib2Compliant => cf_smtlib2 c
    end.
  Definition is_spelling (f : flag) (k : string) : bool := existsb (String.eqb k) (spellings f).

  (** Values accepted for a flag / for the precision, in order. *)
  Fixpoint flag_values (f : flag) (cmds : list set_cmd) : list bool :=
    match cmds with
    | [] => []
    | SetStr k v :: r =>
        (if is_spelling f k then if String.eqb v "true" then [true] else if String.eqb v "false" then [false] else [] else [])
        ++ flag_values f r
    | SetNum _ _ :: r => flag_values f r
    end.
  Fixpoint precision_values (cmds : list set_cmd) : list dbl :=
    match cmds with
    | [] => []
    | SetNum k v :: r => (if String.eqb k ":precision" && negb (dle v dzero) then [v] else []) ++ precision_values r
    | SetStr _ _ :: r => precision_values r
    end.

  (** What an option holds after file writes [vs]: the last of them, unless it was fixed by the
      command line or by the API before. *)
  Definition from_file {T} (o : oval T) (vs : list T) : T :=
    match ov_type o with
    | TDefault | TFile => last vs (ov_val o)
    | TCommandLine | TCode => ov_val o
    end.
End S.
