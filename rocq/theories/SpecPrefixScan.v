(** * What the scanner should make of the words of a printed term (C56) *)
From Coq Require Import List Bool Ascii String.
From Verif Require Import Scan.
From Verif Require PrefixRead SpecLiteral.
Import ListNotations.
Local Open Scope char_scope.

(** A word the scanner should deliver whole: reserved, a name, or a number as C51 writes it *)
Definition legible (w : string) : Prop :=
  In w (map fst reserved) \/ PrefixRead.is_symbol w = true \/ exists t, SpecLiteral.well_formed t /\ w = SpecLiteral.show t.
(** The token for it *)
Inductive read_as : PrefixRead.tok -> token -> Prop :=
| As_open : read_as PrefixRead.TOpen (CHAR "(")
| As_close : read_as PrefixRead.TClose (CHAR ")")
| As_reserved k v : In (k, v) reserved -> read_as (PrefixRead.TWord k) (TK v)
| As_symbol w : PrefixRead.is_symbol w = true -> read_as (PrefixRead.TWord w) (SYMBOL (lit w))
| As_int t : SpecLiteral.well_formed t -> SpecLiteral.integral t -> read_as (PrefixRead.TWord (SpecLiteral.show t)) (INT (lit (SpecLiteral.show t)))
| As_double t : SpecLiteral.well_formed t -> ~ SpecLiteral.integral t -> read_as (PrefixRead.TWord (SpecLiteral.show t)) (DOUBLE (lit (SpecLiteral.show t))).
