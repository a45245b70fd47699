(** * Where branch-and-prune splits *)
From Coq Require Import Reals List Bool.
From Verif Require Import Dbl Syntax Interval MathConv IEval Contr Icp Forall.
Import ListNotations.

Section Spec.
  Variable ev : formula -> box -> option (etype * ival).
  Variable precision : dbl.
  Variable fs : list formula.
  (** [f] still asks for splitting box [b]: its evaluation is undecided and wider than the precision, and it is neither a bound on
      a variable nor a disequality. *)
  Definition asks (b : box) (f : formula) : Prop :=
    In f fs /\ no_branch f = false /\ exists i, ev f b = Some (UNKNOWN, i) /\ dgt (i_diam i) precision = true.
  (** dimension [d] belongs to a variable of such a constraint *)
  Definition candidate (b : box) (d : nat) : Prop :=
    exists f v, asks b f /\ nth_error (bvars b) d = Some v /\ In v (fvF f).
  (** No constraint rules the box out, and every evaluation succeeds. *)
  Definition undecided (b : box) : Prop := forall f, In f fs -> exists t i, ev f b = Some (t, i) /\ t <> UNSAT.
  (** [d] is the first widest one of the dimensions satisfying [P] *)
  Definition widest (P : nat -> Prop) (b : box) (d : nat) : Prop :=
    P d /\ forall e, P e -> dle (i_diam (b_get b e)) (i_diam (b_get b d)) = true /\ (e < d -> dlt (i_diam (b_get b e)) (i_diam (b_get b d)) = true).
End Spec.

(** How far disjunct [g] is from being decided on box [m]: the width of its evaluation, or its largest magnitude if it is false there *)
Definition dis_size (ev : formula -> box -> option (etype * ival)) (g : formula) (m : box) : option dbl :=
  match ev g m with Some (UNSAT, i) => Some (i_mag i) | Some (_, i) => Some (i_diam i) | None => None end.
