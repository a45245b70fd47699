(** * Specification vocabulary for normal forms (independent of the conversions) *)
From Coq Require Import List Bool.
From Verif Require Import Dbl Syntax.
Import ListNotations.

(** Every comparison occurring in [f] satisfies [P] (used for "the comparison was not constant-folded
    when it was built", which holds of every formula built through the API). *)
Inductive rels_ok (P : relop -> expr -> expr -> Prop) : formula -> Prop :=
| ro_true : rels_ok P FTrue
| ro_false : rels_ok P FFalse
| ro_var v : rels_ok P (FVar v)
| ro_rel o a b : P o a b -> rels_ok P (FRel o a b)
| ro_and fs : (forall g, In g fs -> rels_ok P g) -> rels_ok P (FAnd fs)
| ro_or fs : (forall g, In g fs -> rels_ok P g) -> rels_ok P (FOr fs)
| ro_not g : rels_ok P g -> rels_ok P (FNot g)
| ro_all vs g : rels_ok P g -> rels_ok P (FForall vs g).

(** [f] could have been built by the relational constructors: no comparison has a constant difference. *)
Definition unfolded (fold : expr -> expr -> option dbl) : formula -> Prop :=
  rels_ok (fun _ a b => fold a b = None).

Inductive atom : formula -> Prop :=
| at_var v : atom (FVar v)
| at_rel o a b : atom (FRel o a b)
| at_all vs g : atom (FForall vs g).

(** Negation normal form: negations only on atoms; with [push], not on comparisons either. *)
Inductive is_nnf (push : bool) : formula -> Prop :=
| nf_true : is_nnf push FTrue
| nf_false : is_nnf push FFalse
| nf_atom f : atom f -> is_nnf push f
| nf_neg f : atom f -> (push = true -> forall o a b, f <> FRel o a b) -> is_nnf push (FNot f)
| nf_and fs : (forall g, In g fs -> is_nnf push g) -> is_nnf push (FAnd fs)
| nf_or fs : (forall g, In g fs -> is_nnf push g) -> is_nnf push (FOr fs).

Inductive literal : formula -> Prop :=
| li_pos f : atom f -> literal f
| li_neg f : atom f -> literal (FNot f).
Inductive clause : formula -> Prop :=
| cl_true : clause FTrue
| cl_false : clause FFalse
| cl_lit f : literal f -> clause f
| cl_or fs : (forall g, In g fs -> literal g) -> clause (FOr fs).
Inductive cnf : formula -> Prop :=
| cn_clause f : clause f -> cnf f
| cn_and fs : (forall g, In g fs -> clause g) -> cnf (FAnd fs).

(** Bodies of positive quantifiers are in CNF as well, and so on inwards. *)
Inductive deep_cnf : formula -> Prop :=
| dc_true : deep_cnf FTrue
| dc_false : deep_cnf FFalse
| dc_var v : deep_cnf (FVar v)
| dc_rel o a b : o <> REq -> o <> RNeq -> deep_cnf (FRel o a b)
| dc_not f : deep_cnf (FNot f)
| dc_and fs : (forall g, In g fs -> deep_cnf g) -> deep_cnf (FAnd fs)
| dc_or fs : (forall g, In g fs -> deep_cnf g) -> deep_cnf (FOr fs)
| dc_all vs g : cnf g -> deep_cnf g -> deep_cnf (FForall vs g).

(** Formulas the API can build without quantifiers: operand sets of at least two distinct operands,
    no constants inside connectives, no directly nested connective of the same kind, no double negation.
    (Proved closed under the constructors in TseitinShape.v.) *)
Inductive api_form : formula -> Prop :=
| af_true : api_form FTrue
| af_false : api_form FFalse
| af_var v : api_form (FVar v)
| af_rel o a b : api_form (FRel o a b)
| af_and fs : NoDup fs -> (2 <= length fs) ->
    (forall g, In g fs -> api_form g /\ g <> FTrue /\ g <> FFalse /\ (forall hs, g <> FAnd hs)) -> api_form (FAnd fs)
| af_or fs : NoDup fs -> (2 <= length fs) ->
    (forall g, In g fs -> api_form g /\ g <> FTrue /\ g <> FFalse /\ (forall hs, g <> FOr hs)) -> api_form (FOr fs)
| af_not g : api_form g -> g <> FTrue -> g <> FFalse -> (forall h, g <> FNot h) -> api_form (FNot g).
