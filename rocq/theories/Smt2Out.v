(** * What a script prints: check-sat, get-model, get-value (dreal/smt2/driver.cc:113-249)

    Texts are modelled by their content: names by variables, numbers by what they denote. *)
From Coq Require Import ZArith Reals List Bool.
From Flocq Require Import IEEE754.BinarySingleNaN.
From Verif Require Import Dbl Syntax Sem FormulaCons Interval MathConv IEval ExprAlg Contr Icp Theory IteElim Sat Context Smt2.
Import ListNotations.

(** A printed value *)
Inductive shown :=
| ShTrue | ShFalse
| ShNone                                  (* nothing *)
| ShPoint (d : dbl)                       (* one number, to 17 digits *)
| ShIval (i : ival)
| ShUnassigned
| ShInts (l u : Z)                        (* "[l, u]" *)
| ShRat (p : Z * Z)                       (* num / den *)
| ShRats (p q : Z * Z).                   (* (interval (closed ..) (closed ..)) *)
Inductive line :=
| LUnsat
| LSat                                    (* "delta-sat" *)
| LSatDelta (model : option (list (var * shown)))    (* "delta-sat with delta = ..", and the model if asked for *)
| LError                                  (* (error "model is not available") *)
| LModel (m : list (var * shown))
| LValues (l : list (term * shown)).

Definition i_one : ival := IV (dZ 1) (dZ 1).
Definition i_zero : ival := IV dzero dzero.
(** PrintModel, driver.cc:133-171 *)
Definition print_dim (v : var) (i : ival) : shown :=
  match vty v with
  | BOOLEAN => if i_eqb i i_one then ShTrue else if i_eqb i i_zero then ShFalse else ShNone
  | _ => if i_degenerated i then ShPoint (ilb i) else ShIval i
  end.
Definition print_model (b : box) : list (var * shown) := map (fun p => (snd p, print_dim (snd p) (b_get b (fst p)))) (combine (seq 0 (b_size b)) (bvars b)).
(** operator<<(ostream, Box), util/box.cc:232-266.  static_cast<int> of a double outside the range of int is undefined. *)
Definition show_dim (v : var) (i : ival) : out shown :=
  match vty v with
  | INTEGER | BINARY =>
      match i with
      | IEmpty => Val (ShIval IEmpty)
      | IV l u => match cast_int l, cast_int u with Some a, Some b => Val (ShInts a b) | _, _ => Ub end
      end
  | CONTINUOUS => Val (ShIval i)
  | BOOLEAN => Val (if deq (iub i) dzero then ShFalse else if deq (ilb i) (dZ 1) then ShTrue else ShUnassigned)
  end.
Fixpoint show_dims (l : list (var * ival)) : out (list (var * shown)) :=
  match l with
  | [] => Val []
  | (v, i) :: r =>
      match show_dim v i, show_dims r with
      | Val x, Val y => Val ((v, x) :: y)
      | Val _, o => o
      | Throw, _ => Throw | Ub, _ => Ub | Fuel, _ => Fuel
      end
  end.
(** CheckSat, driver.cc:113-130, with the options smtlib2_compliant and produce_models *)
Definition print_check (compliant produce : bool) (r : option box) : out line :=
  match r with
  | None => Val LUnsat
  | Some m =>
      if compliant then Val LSat
      else if produce then match show_dims (combine (bvars m) (bvals m)) with Val s => Val (LSatDelta (Some s)) | Throw => Throw | Ub => Ub | Fuel => Fuel end
      else Val (LSatDelta None)
  end.
(** ToRational, driver.cc:180-188: mpq_class{d} is the exact value in lowest terms; for an infinity or a NaN
    GMP raises an invalid-operation signal. *)
Definition to_rational (d : dbl) : out (Z * Z) :=
  match d with
  | B754_zero _ => Val (0, 1)%Z
  | B754_finite s m e _ =>
      let n := if s then Zneg m else Zpos m in
      if Z.leb 0 e then Val (n * 2 ^ e, 1)%Z
      else let g := Z.gcd n (2 ^ (- e)) in Val (n / g, 2 ^ (- e) / g)%Z
  | _ => Ub
  end.
(** ToString(Interval), driver.cc:192-199 *)
Definition print_ival (i : ival) : out shown :=
  if deq (ilb i) (iub i) then match to_rational (ilb i) with Val p => Val (ShRat p) | _ => Ub end
  else match to_rational (ilb i), to_rational (iub i) with Val p, Val q => Val (ShRats p q) | _, _ => Ub end.

Section Out.
  Variables (fold : expr -> expr -> option dbl) (K : eops) (pico : pico_t) (T : nat -> box -> list formula -> option tres) (mid : dbl -> dbl -> dbl) (precision : dbl).
  Variable A : iarith.                        (* the interval arithmetic of ExpressionEvaluator *)
  Variables (compliant produce : bool).

  (** GetModel, driver.cc:202-210 *)
  Definition print_get_model (c : ctx) : line := if b_empty (cx_model c) then LError else LModel (print_model (cx_model c)).
  (** GetValue, driver.cc:212-249: a compound formula throws; an expression that ExpressionEvaluator rejects throws *)
  Definition value_of (m : box) (t : term) : out shown :=
    match t with
    | TmE e => match evalI A e m with None => Throw | Some i => print_ival i end
    | TmF (FVar v) => Val (if i_eqb (b_getv m v) i_one then ShTrue else ShFalse)
    | TmF _ => Throw
    end.
  Fixpoint values_of (m : box) (l : list term) : out (list (term * shown)) :=
    match l with
    | [] => Val []
    | t :: r => match value_of m t, values_of m r with
                | Val x, Val y => Val ((t, x) :: y)
                | Val _, o => o
                | Throw, _ => Throw | Ub, _ => Ub | Fuel, _ => Fuel
                end
    end.

  (** The commands, as calls on the context and questions about the model *)
  Inductive ocmd := CCall (o : cop) | CGetModel | CGetValue (l : list term).
  (** [None]: an exception or the end of the fuel stops the script; [Some Ub]: undefined behaviour *)
  Definition o_step (q : ocmd) (c : ctx) : option (ctx * list (out line)) :=
    match q with
    | CCall o =>
        match cx_step fold K pico T mid precision o c with
        | Some (c1, answers) => Some (c1, map (print_check compliant produce) answers)
        | None => None
        end
    | CGetModel => Some (c, [Val (print_get_model c)])
    | CGetValue l => match values_of (cx_model c) l with Val s => Some (c, [Val (LValues s)]) | Ub => Some (c, [Ub]) | _ => None end
    end.
  Fixpoint o_run (qs : list ocmd) (c : ctx) : option (ctx * list (out line)) :=
    match qs with
    | [] => Some (c, [])
    | q :: qs' =>
        match o_step q c with
        | None => None
        | Some (c1, l) => match o_run qs' c1 with None => None | Some (c2, l') => Some (c2, l ++ l') end
        end
    end.
End Out.
