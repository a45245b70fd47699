(** * What printing a term means (C56) *)
From Coq Require Import ZArith Reals List Bool Ascii String.
From Flocq Require Import Core.Core IEEE754.BinarySingleNaN.
From Verif Require Import Dbl Syntax Smt2.
Import ListNotations.

(** The literal [e] stands for the double [c]: it is that number, or two neighbouring doubles of which it uses [c]. *)
Definition recalls (e : expr) (c : dbl) : Prop :=
  (exists d, e = EConst d /\ is_finite d = true /\ B2R d = B2R c) \/
  (exists lb ub u, e = EReal lb ub u /\ is_finite lb = true /\ is_finite ub = true /\ B2R (if u then lb else ub) = B2R c).
(** A number with at most 19 significant decimal digits *)
Definition short (c : dbl) : Prop := exists n k : Z, (0 <= n < 10 ^ 19)%Z /\ Rabs (B2R c) = (IZR n * powerRZ 10 k)%R.
(** Constants whose text is read at all: zero or not tiny; not an integer beyond 2^53 written without an exponent *)
Definition writable (c : dbl) : Prop :=
  is_finite c = true /\ (B2R c = 0 \/ bpow radix2 (-1020) <= Rabs (B2R c))%R /\ (Rabs (B2R c) <= IZR (2 ^ 53) \/ powerRZ 10 19 <= Rabs (B2R c))%R.

(** Terms that can be printed and read: constants as allowed by [C], variables as allowed by [V], sums of at least one and products of at
    least two printed operands, connectives with operands; no decimal literals, uninterpreted functions and quantifiers. *)
Section Printable.
  Variables (C : dbl -> Prop) (V : var -> Prop).
  Fixpoint printableE (e : expr) : Prop :=
    match e with
    | EConst c => C c
    | EReal _ _ _ | EUf _ _ => False
    | EVar v => V v /\ vty v <> BOOLEAN
    | EAdd c ts => C c /\ (B2R c <> 0%R \/ ts <> []) /\ fold_right (fun p acc => match p with (a, k) => (printableE a /\ C k) /\ acc end) True ts
    | EMul c ts => C c /\ (B2R c <> 1%R /\ ts <> [] \/ 2 <= List.length ts) /\ fold_right (fun p acc => match p with (a, b) => (printableE a /\ printableE b) /\ acc end) True ts
    | EUn _ a => printableE a
    | EBin _ a b => printableE a /\ printableE b
    | EIte f a b => printableF f /\ printableE a /\ printableE b
    end
  with printableF (f : formula) : Prop :=
    match f with
    | FTrue | FFalse => True
    | FVar v => V v /\ vty v = BOOLEAN
    | FRel _ a b => printableE a /\ printableE b
    | FAnd fs | FOr fs => fs <> [] /\ fold_right (fun g acc => printableF g /\ acc) True fs
    | FNot g => printableF g
    | FForall _ _ => False
    end.
End Printable.

(** The term with every decimal literal replaced by the double it uses *)
Fixpoint settle (t : sterm) : sterm :=
  match t with
  | SDec lb ub u => SNum (if u then lb else ub)
  | STrue | SFalse | SSym _ | SNum _ => t
  | SEq a b => SEq (settle a) (settle b)
  | SRel o a b => SRel o (settle a) (settle b)
  | SAnd l => SAnd (map settle l) | SOr l => SOr (map settle l) | SXor l => SXor (map settle l)
  | SNot a => SNot (settle a)
  | SImp a b => SImp (settle a) (settle b)
  | SIte c a b => SIte (settle c) (settle a) (settle b)
  | SForall bs a => SForall bs (settle a)
  | SLet bs a => SLet (map (fun p => match p with (x, b) => (x, settle b) end) bs) (settle a)
  | SNeg a => SNeg (settle a)
  | SAri o a l => SAri o (settle a) (map settle l)
  | SFun o a => SFun o (settle a)
  | SFun2 o a b => SFun2 o (settle a) (settle b)
  | SApp f l => SApp f (map settle l)
  end.
