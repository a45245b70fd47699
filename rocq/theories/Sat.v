(** * The SAT solver wrapper

    Models solver/sat_solver.cc.  PicoSAT itself is external: its clause database follows its
    documented push/pop contract, and its answers come from an oracle (contract: [pico_ok]). *)
From Coq Require Import ZArith List Bool.
From Verif Require Import Dbl Syntax FormulaCons PredAbs Tseitin Scoped IEval.
Import ListNotations.


(** A PicoSAT literal: variable number and sign (the program uses [n] and [-n]). *)
Definition plit : Type := (nat * bool)%type.
Definition pclause : Type := list plit.
(** picosat_sat, picosat_deref / picosat_deref_partial ([None]: 0, unassigned) *)
Inductive panswer := PSat (a : nat -> option bool) | PUnsat | PUnknown.

(** sat_solver.h:117-139.  cnfizer_ keeps no state between conversions (its map is cleared at the start
    of Convert); predicate_abstractor_ is [ss_pa]; the identifier counter of Variable is passed along. *)
(* The maps keyed by Variable::Id in the program are keyed by the variable here; identifiers are unique. *)
Record satst := {
  ss_clauses : svec pclause;         (* PicoSAT's clauses; picosat_push / picosat_pop *)
  ss_to_sat : smapt var nat;         (* to_sat_var_ *)
  ss_to_sym : smapt nat var;         (* to_sym_var_ *)
  ss_tse : smapt var unit;           (* tseitin_variables_ *)
  ss_pa : list (var * formula);
  ss_max : nat;                      (* picosat_variables *)
  ss_popped : bool                   (* has_picosat_pop_used_ *)
}.
Definition sat_init : satst :=
  {| ss_clauses := sv_init; ss_to_sat := sm_init; ss_to_sym := sm_init; ss_tse := sm_init;
     ss_pa := []; ss_max := 0; ss_popped := false |}.

Definition with_clause (L : pclause) (s : satst) : satst :=
  {| ss_clauses := sv_push_back L (ss_clauses s); ss_to_sat := ss_to_sat s; ss_to_sym := ss_to_sym s; ss_tse := ss_tse s;
     ss_pa := ss_pa s; ss_max := ss_max s; ss_popped := ss_popped s |}.
Definition with_pa (m : list (var * formula)) (s : satst) : satst :=
  {| ss_clauses := ss_clauses s; ss_to_sat := ss_to_sat s; ss_to_sym := ss_to_sym s; ss_tse := ss_tse s;
     ss_pa := m; ss_max := ss_max s; ss_popped := ss_popped s |}.
Definition with_tse (t : smapt var unit) (s : satst) : satst :=
  {| ss_clauses := ss_clauses s; ss_to_sat := ss_to_sat s; ss_to_sym := ss_to_sym s; ss_tse := t;
     ss_pa := ss_pa s; ss_max := ss_max s; ss_popped := ss_popped s |}.

Definition sat_of (s : satst) (v : var) : option nat := al_find var_eqb v (sm_map (ss_to_sat s)).
Definition sym_of (s : satst) (n : nat) : option var := al_find Nat.eqb n (sm_map (ss_to_sym s)).
Definition is_tse (s : satst) (v : var) : bool :=
  match al_find var_eqb v (sm_map (ss_tse s)) with Some _ => true | None => false end.

(** MakeSatVar, 230-241; picosat_inc_max_var returns the next number *)
Definition make_sat_var (s : satst) (v : var) : satst :=
  match sat_of s v with
  | Some _ => s
  | None =>
      let n := S (ss_max s) in
      {| ss_clauses := ss_clauses s; ss_to_sat := sm_insert var_eqb v n (ss_to_sat s);
         ss_to_sym := sm_insert Nat.eqb n v (ss_to_sym s); ss_tse := ss_tse s;
         ss_pa := ss_pa s; ss_max := n; ss_popped := ss_popped s |}
  end.
(** AddLiteral, 198-215; [None]: to_sat_var_[] throws, or the formula is not a literal (the assertion is
    compiled out and the cell is read at the wrong type) *)
Definition lit_of (s : satst) (f : formula) : option plit :=
  match f with
  | FVar v => bind (sat_of s v) (fun n => Some (n, true))
  | FNot (FVar v) => bind (sat_of s v) (fun n => Some (n, false))
  | _ => None
  end.
Fixpoint lits_of (s : satst) (fs : list formula) : option pclause :=
  match fs with
  | [] => Some []
  | f :: fs' => bind (lit_of s f) (fun l => bind (lits_of s fs') (fun r => Some (l :: r)))
  end.
(** DoAddClause, 217-228 *)
Definition clause_lits (f : formula) : list formula := match f with FOr fs => fs | _ => [f] end.
(** AddClause, 86-94.  [fvF] lists the free variables in order of occurrence, the program's set is ordered
    by identifier: only the numbering of PicoSAT's variables differs. *)
Definition sat_add_clause (f : formula) (s : satst) : option satst :=
  let s1 := fold_left make_sat_var (fvF f) s in
  bind (lits_of s1 (clause_lits f)) (fun L => Some (with_clause L s1)).
(** AddClauses, 80-84 *)
Fixpoint sat_add_clauses (fs : list formula) (s : satst) : option satst :=
  match fs with [] => Some s | f :: fs' => bind (sat_add_clause f s) (sat_add_clauses fs') end.

Section Sat.
  Variable fold : expr -> expr -> option dbl.

  (** AddFormula, 54-65; [n] is the next identifier, returned updated *)
  Definition sat_add_formula (f : formula) (n : nat) (s : satst) : option (satst * nat) :=
    let (ocs, t) := ts_convert fold f n in
    bind ocs (fun cs =>
      let s1 := with_tse (fold_left (fun m p => ss_insert var_eqb (fst p) tt m) (ts_map t) (ss_tse s)) s in
      let (gs, p) := smap (pa_convert fold) cs {| pa_next := ts_next t; pa_map := ss_pa s1 |} in
      bind (sat_add_clauses gs (with_pa (pa_map p) s1)) (fun s2 => Some (s2, pa_next p))).

  (** AddLearnedClause, 73-78 *)
  Definition sat_learn (E : list formula) (n : nat) (s : satst) : option (satst * nat) :=
    let (gs, p) := smap (pa_convert fold) E {| pa_next := n; pa_map := ss_pa s |} in
    let s1 := with_pa (pa_map p) s in
    bind (lits_of s1 (map mk_not gs)) (fun L => Some (with_clause L s1, pa_next p)).
End Sat.

(** CheckSat, 135-167: the Boolean and the theory part of PicoSAT's assignment *)
Definition in_pa (s : satst) (v : var) : bool := existsb (fun p => var_eqb v (fst p)) (ss_pa s).
Fixpoint sat_model_loop (s : satst) (a : nat -> option bool) (is : list nat) : list (var * bool) * list (var * bool) :=
  match is with
  | [] => ([], [])
  | i :: is' =>
      let (bm, tm) := sat_model_loop s a is' in
      match a i with
      | None => (bm, tm)
      | Some val =>
          match sym_of s i with
          | None => (bm, tm)
          | Some v =>
              if in_pa s v then (bm, (v, val) :: tm)
              else if is_tse s v then (bm, tm)
              else ((v, val) :: bm, tm)
          end
      end
  end.
Definition sat_model (s : satst) (a : nat -> option bool) : list (var * bool) * list (var * bool) :=
  sat_model_loop s a (seq 1 (ss_max s)).

(** Push, 190-196.  picosat_push takes a new variable number for the context; when PicoSAT has one left
    from a popped context it reuses it, the model always takes a new one. *)
Definition sat_push (s : satst) : satst :=
  {| ss_clauses := sv_push (ss_clauses s); ss_to_sat := sm_push (ss_to_sat s); ss_to_sym := sm_push (ss_to_sym s);
     ss_tse := sm_push (ss_tse s); ss_pa := ss_pa s; ss_max := S (ss_max s); ss_popped := ss_popped s |}.
(** Pop, 181-188 *)
Definition sat_pop (s : satst) : option satst :=
  match sm_pop var_eqb (ss_tse s), sm_pop Nat.eqb (ss_to_sym s), sm_pop var_eqb (ss_to_sat s), sv_pop (ss_clauses s) with
  | Ok t, Ok y, Ok x, Ok (_, c) =>
      Some {| ss_clauses := c; ss_to_sat := x; ss_to_sym := y; ss_tse := t; ss_pa := ss_pa s; ss_max := ss_max s; ss_popped := true |}
  | _, _, _, _ => None
  end.

(** theory_literal, sat_solver.h:87-89 *)
Definition theory_literal (s : satst) (v : var) : option formula :=
  option_map snd (List.find (fun p => var_eqb v (fst p)) (ss_pa s)).

(** ** Specification: PicoSAT answers correctly *)
Definition lit_sat (a : nat -> option bool) (l : plit) : Prop := a (fst l) = Some (snd l).
Definition clause_sat (a : nat -> option bool) (L : pclause) : Prop := exists l, In l L /\ lit_sat a l.
(** [pico t popped clauses max]: the answer of the [t]-th call (PicoSAT keeps heuristics between calls). *)
Definition pico_t : Type := nat -> bool -> list pclause -> nat -> panswer.
Definition pico_ok (P : pico_t) : Prop := forall t p cls mx,
  match P t p cls mx with
  | PSat a => forall L, In L cls -> clause_sat a L
  | PUnsat => ~ exists a : nat -> bool, forall L, In L cls -> exists l, In l L /\ a (fst l) = snd l
  | PUnknown => True
  end.
