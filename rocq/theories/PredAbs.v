(** * Predicate abstraction

    Models dreal/util/predicate_abstractor.cc:66-175. *)
From Coq Require Import ZArith List Bool.
From Verif Require Import Dbl Syntax FormulaCons.
Import ListNotations.

(** The two maps var_to_formula_map_ and formula_to_var_map_ (predicate_abstractor.h) always change
    together (Add, lines 61-64), so they are one association list.  [pa_next] is the global
    identifier counter of [Variable] (symbolic_variable.cc: get_next_id). *)
Record pa_state := { pa_next : nat; pa_map : list (var * formula) }.

Definition pa_find (f : formula) (s : pa_state) : option var :=
  option_map fst (List.find (fun p => formula_eqb f (snd p)) (pa_map s)).

Section Smap.
  Context {S : Type}.
  Variable g : formula -> S -> formula * S.
  (** [map] of symbolic.cc:62-68 applied with a stateful function. *)
  Fixpoint smap (l : list formula) (s : S) : list formula * S :=
    match l with
    | [] => ([], s)
    | f :: l' => let (f', s1) := g f s in let (r, s2) := smap l' s1 in (f' :: r, s2)
    end.
End Smap.

Section PredAbs.
  Variable fold : expr -> expr -> option dbl.

  (** VisitAtomic, predicate_abstractor.cc:108-122 *)
  Definition pa_atomic (f : formula) (s : pa_state) : formula * pa_state :=
    match pa_find f s with
    | Some b => (FVar b, s)
    | None =>
        let b := mkVar (pa_next s) BOOLEAN in
        (FVar b, {| pa_next := S (pa_next s); pa_map := (b, f) :: pa_map s |})
    end.
  Definition pa_neg_atomic (f : formula) (s : pa_state) : formula * pa_state :=
    let (g, s') := pa_atomic f s in (mk_not g, s').

  (** Visit and Visit*, predicate_abstractor.cc:80-175 *)
  Fixpoint pa_visit (f : formula) (s : pa_state) {struct f} : formula * pa_state :=
    match pa_find f s with
    | Some b => (FVar b, s)                                        (* 82-90 *)
    | None =>
        match f with
        | FFalse | FTrue | FVar _ => (f, s)                        (* 92-106 *)
        | FRel REq _ _ => pa_atomic f s                            (* 124 *)
        | FRel RNeq l r => pa_neg_atomic (mk_rel fold REq l r) s   (* 128 *)
        | FRel RGt l r => pa_neg_atomic (mk_rel fold RLeq l r) s   (* 134 *)
        | FRel RGeq l r => pa_neg_atomic (mk_rel fold RLt l r) s   (* 140 *)
        | FRel RLt _ _ => pa_atomic f s                            (* 146 *)
        | FRel RLeq _ _ => pa_atomic f s                           (* 150 *)
        | FAnd fs => let (ops, s') := smap pa_visit fs s in (mk_conj (fset ops), s')   (* 154 *)
        | FOr fs => let (ops, s') := smap pa_visit fs s in (mk_disj (fset ops), s')    (* 161 *)
        | FNot g => let (g', s') := pa_visit g s in (mk_not g', s')                    (* 168 *)
        | FForall _ _ => pa_atomic f s                             (* 172 *)
        end
    end.

  (** Convert, predicate_abstractor.cc:66-72 *)
  Definition pa_convert := pa_visit.
End PredAbs.

(** Meaning of the recorded relation, used by the statements. *)
Definition pa_vars (s : pa_state) : list var := map fst (pa_map s).
