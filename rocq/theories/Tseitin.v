(** * Tseitin CNF conversion

    Models dreal/util/tseitin_cnfizer.cc:83-286. *)
From Coq Require Import ZArith List Bool.
From Verif Require Import Dbl Syntax FormulaCons Nnf PredAbs.
Import ListNotations.

(** [map_] (tseitin_cnfizer.h) and the global variable-id counter. Newest entry first. *)
Record ts_state := { ts_next : nat; ts_map : list (var * formula) }.

Definition ts_fresh (s : ts_state) : var * ts_state :=
  (mkVar (ts_next s) BOOLEAN, {| ts_next := S (ts_next s); ts_map := ts_map s |}).
Definition ts_emplace (b : var) (f : formula) (s : ts_state) : ts_state :=
  {| ts_next := ts_next s; ts_map := (b, f) :: ts_map s |}.

Section Tseitin.
  Variable fold : expr -> expr -> option dbl.

  (** The set built by VisitForall, tseitin_cnfizer.cc:132-144 *)
  Definition forall_clauses (vs : list var) (g : formula) : list formula :=
    fset (map (fun c => if existsb (fun v => mem_var v vs) (fvF c) then mk_forall vs c else c)
              (get_clauses (naive_cnf fold g))).

  (** Visit*, tseitin_cnfizer.cc:109-191 *)
  Fixpoint ts_visit (f : formula) (s : ts_state) {struct f} : formula * ts_state :=
    match f with
    | FFalse | FTrue | FVar _ | FRel _ _ _ => (f, s)
    | FForall vs g =>
        match forall_clauses vs g with
        | [c] => (c, s)
        | cs => let (b, s1) := ts_fresh s in (FVar b, ts_emplace b (mk_conj cs) s1)
        end
    | FAnd fs =>
        let (ops, s1) := smap ts_visit fs s in
        let (b, s2) := ts_fresh s1 in
        (FVar b, ts_emplace b (mk_conj (fset ops)) s2)
    | FOr fs =>
        let (ops, s1) := smap ts_visit fs s in
        let (b, s2) := ts_fresh s1 in
        (FVar b, ts_emplace b (mk_disj (fset ops)) s2)
    | FNot g =>
        if is_atomic g then (f, s)
        else let (b, s1) := ts_fresh s in
             let (g', s2) := ts_visit g s1 in
             (FVar b, ts_emplace b (mk_not g') s2)
    end.

  (** Add, tseitin_cnfizer.cc:228-233 *)
  Definition add_clause (f : formula) (cs : list formula) : list formula :=
    if is_true f then cs else cs ++ [f].
  (** Cnfize and its cases, tseitin_cnfizer.cc:196-286; [None] = DREAL_UNREACHABLE (throws). *)
  Definition cnfize (b : var) (f : formula) : option (list formula) :=
    match f with
    | FNot _ =>
        Some (add_clause (mk_imply f (FVar b)) (add_clause (mk_imply (FVar b) f) []))
    | FAnd fs =>
        let cs := fold_left (fun cs bi => add_clause (mk_or (mk_not (FVar b)) bi) cs) fs [] in
        Some (add_clause (mk_or (mk_disj (fset (map mk_not fs))) (FVar b)) cs)
    | FOr fs =>
        let cs := add_clause (mk_or (mk_not (FVar b)) f) [] in
        Some (fold_left (fun cs nbi => add_clause (mk_or nbi (FVar b)) cs) (fset (map mk_not fs)) cs)
    | _ => None
    end.

  Fixpoint cnfize_map (h : var) (m : list (var * formula)) : option (list formula) :=
    match m with
    | [] => Some []
    | (b, f) :: m' =>
        match (if var_eqb h b then Some (get_clauses f) else cnfize b f), cnfize_map h m' with
        | Some c1, Some c2 => Some (c1 ++ c2)
        | _, _ => None
        end
    end.

  (** Convert, tseitin_cnfizer.cc:83-107.  The order of the clauses (map_ is a std::map ordered by
      variable id) is not modelled. Returns the clauses, the map and the next variable id. *)
  Definition ts_convert (f : formula) (next : nat) : option (list formula) * ts_state :=
    let (head, s) := ts_visit f {| ts_next := next; ts_map := [] |} in
    (match ts_map s with
     | [] => Some [head]
     | m => match head with FVar h => cnfize_map h m | _ => None end
     end, s).
End Tseitin.
