(** * Numeric literals of SMT-LIB files: C51

    [numeral], [show], [value], [well_formed], [stands_for], [neighbours], [nearest] are in SpecLiteral.v; [rc_ok] (a literal has a value within
    its bounds) in Sem.v. *)
From Coq Require Import ZArith Reals List Bool Ascii String.
From Flocq Require Import Core.Core IEEE754.BinarySingleNaN.
From Verif Require Import Dbl Interval Syntax Sem Literal SpecLiteral LiteralProofs LiteralTop ExamplesForm ExamplesAlg ExamplesBox ExamplesLiteral.
Import ListNotations.

(** ** The term read from a literal is the double that is its exact decimal value or, if no double is, the interval between the two neighbouring
    doubles around it, the nearer one being the representative. *)
Theorem C51_literal_enclosed : forall under mid t e, mid_ok mid -> well_formed t -> read_number under mid (show t) = Some e -> stands_for e (value t).
Proof. exact (fun under mid t e HM => number_ok under mid HM t e). Qed.
Print Assumptions C51_literal_enclosed.
Example C51_literal_example : forall under, well_formed tenth /\ show tenth = "0.1"%string /\ value tenth = (/ 10)%R /\ read_number under ibex_mid (show tenth) = Some tenth_e /\
  well_formed m2500 /\ show m2500 = "-2.5e3"%string /\ value m2500 = (-2500)%R /\ read_number under ibex_mid (show m2500) = Some (kk (-2500)).
Proof. exact literal_meets. Qed.

(** ** Literals are accepted if they are 0 or of a magnitude between 2^-1021 and DBL_MAX, except those with a plus sign that are not integers
    and integers beyond 2^53. *)
Theorem C51_accepted_partial : forall under mid t, well_formed t -> (if is_int (show t) then (Rabs (value t) <= IZR (2 ^ 53))%R else n_sign t <> Plus) ->
  (value t = 0 \/ bpow radix2 (-1021) <= Rabs (value t) <= B2R dmax)%R -> exists e, read_number under mid (show t) = Some e.
Proof. exact number_some. Qed.
Print Assumptions C51_accepted_partial.
Example C51_accepted_example : is_int (show tenth) = false /\ (bpow radix2 (-1021) <= Rabs (value tenth) <= B2R dmax)%R /\ n_sign tenth <> Plus.
Proof. exact accepted_meet. Qed.
(** +1.5 throws; so does 9007199254740993. *)
Theorem C51_plus_refuted : forall under mid, well_formed plus15 /\ show plus15 = "+1.5"%string /\ value plus15 = (3 / 2)%R /\ read_number under mid (show plus15) = None.
Proof. exact plus_rejected. Qed.
Print Assumptions C51_plus_refuted.
Theorem C51_integer_refuted : forall under mid, well_formed bigint /\ value bigint = 9007199254740993%R /\ read_number under mid (show bigint) = None.
Proof. exact bigint_rejected. Qed.
Print Assumptions C51_integer_refuted.

(** ** If no two different literals lie between the same neighbours, there is an interpretation within the bounds of all literals that gives
    each literal its decimal value: what is proved for all such interpretations holds for the decimal values. *)
Theorem C51_interpreted_partial : forall under mid, mid_ok mid -> forall ts, (forall t, In t ts -> well_formed t) ->
  (forall t t' lb ub u u', In t ts -> In t' ts -> read_number under mid (show t) = Some (EReal lb ub u) -> read_number under mid (show t') = Some (EReal lb ub u') -> value t = value t') ->
  exists rc, forall M, i_rc M = rc -> rc_ok M /\ forall t e rho, In t ts -> read_number under mid (show t) = Some e -> evalE M e rho = value t.
Proof. exact literals_interpreted. Qed.
Print Assumptions C51_interpreted_partial.
(** ** Otherwise not: 0.1 and 0.100000000000000001 are read as the same term, so x = 0.1 and not x = 0.100000000000000001 contradict each other. *)
Theorem C51_confused_refuted : forall under, well_formed tenth /\ well_formed tenth' /\ read_number under ibex_mid (show tenth) = Some tenth_e /\ read_number under ibex_mid (show tenth') = Some tenth_e /\ (value tenth < value tenth')%R /\
  forall M rho, ~ (holds M (FRel REq ex tenth_e) rho /\ holds M (FNot (FRel REq ex tenth_e)) rho).
Proof. exact literals_confused. Qed.
Print Assumptions C51_confused_refuted.
