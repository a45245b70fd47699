(** * Specification of the output of a script: every line is about the last check

    The answers are those of the calls made on the context. *)
From Coq Require Import ZArith Reals List Bool.
From Flocq Require Import IEEE754.BinarySingleNaN.
From Verif Require Import Dbl Syntax Sem Interval IEval ExprAlg Contr Context Smt2 Smt2Out.
Import ListNotations.

Definition calls_of (qs : list ocmd) : list cop := flat_map (fun q => match q with CCall o => [o] | _ => [] end) qs.
Section Reports.
  Variables (A : iarith) (compliant produce : bool).
  (** [last]: the answer of the last check, if any *)
  Fixpoint reports (qs : list ocmd) (answers : list (option box)) (last : option (option box)) (lines : list (out line)) : Prop :=
    match qs with
    | [] => answers = [] /\ lines = []
    | CCall (OCheck _) :: r =>
        match answers, lines with
        | a :: answers', x :: lines' =>
            (a = None -> x = Val LUnsat) /\ (x = Val LUnsat -> a = None) /\ x = print_check compliant produce a /\ reports r answers' (Some a) lines'
        | _, _ => False
        end
    | CCall _ :: r => reports r answers last lines
    | CGetModel :: r =>
        match lines with
        | x :: lines' =>
            match last with
            | Some None => x = Val LError
            | Some (Some m) => x = Val (if b_empty m then LError else LModel (print_model m))
            | None => x = Val (LModel [])
            end /\ reports r answers last lines'
        | [] => False
        end
    | CGetValue l :: r =>
        match lines with
        | x :: lines' =>
            match last with
            | Some (Some m) => match values_of A m l with Val s => x = Val (LValues s) | _ => x = Ub end
            | _ => True
            end /\ reports r answers last lines'
        | [] => False
        end
    end.
End Reports.
(** The rational number [p]. *)
Definition rat (p : Z * Z) : R := (IZR (fst p) / IZR (snd p))%R.
(** Some of what a printed value says about a real number. *)
Definition says (s : shown) (x : R) : Prop :=
  match s with
  | ShTrue => x = 1%R
  | ShFalse => x = 0%R
  | ShPoint d => x = B2R d
  | ShIval i => imem x i
  | ShInts l u => (IZR l <= x <= IZR u)%R
  | ShRat p => x = rat p
  | ShRats p q => (rat p <= x <= rat q)%R
  | ShNone | ShUnassigned => True
  end.
