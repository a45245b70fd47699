(** * Translation of literals to the interval library, and contractor generation

    Models util/ibex_converter.cc and contractor/generic_contractor_generator.cc, plus the leaf
    constructors in contractor/contractor.cc:138-177. *)
From Coq Require Import ZArith Reals List Bool.
From Flocq Require Import IEEE754.BinarySingleNaN.
From Verif Require Import Dbl Syntax Sem Interval MathConv FormulaCons Nnf IEval Contr.
Import ListNotations.

(** ibex::ExprNode, as far as the converter builds it.  [NSym i] is the i-th symbol of the
    variable array handed to the constraint. *)
Inductive inode :=
| NSym (i : nat)
| NConst (c : dbl)                  (* ExprConstant::new_scalar(double) *)
| NIval (l u : dbl)                 (* ExprConstant::new_scalar(Interval(lb, ub)) *)
| NAdd (a b : inode)
| NSub (a b : inode)
| NMul (a b : inode)
| NBin (o : binop) (a b : inode)    (* / , pow(EXPR, EXPR), atan2, min, max *)
| NPowI (a : inode) (z : Z)         (* pow(EXPR, int) *)
| NPowD (a : inode) (c : dbl)       (* pow(EXPR, double) *)
| NPowC (c : dbl) (a : inode)       (* pow(double, EXPR) *)
| NUn (o : unop) (a : inode).
(** ibex::CmpOp *)
Inductive iop := OpEq | OpGt | OpGeq | OpLt | OpLeq.

(** Result of a conversion: a value, an exception, a null dereference, or fuel exhausted. *)
Inductive cres (A : Type) := COk (a : A) | CThrow | CUB | CFuel.
Arguments COk {A}. Arguments CThrow {A}. Arguments CUB {A}. Arguments CFuel {A}.
Definition cbind {A B} (x : cres A) (k : A -> cres B) : cres B :=
  match x with COk a => k a | CThrow => CThrow | CUB => CUB | CFuel => CFuel end.

Definition dhalf : dbl := mkd 1 (-1).

Section Conv.
  (** Expression operator-(e1, e2) and unary operator- *)
  Variable esub : expr -> expr -> expr.
  Variable eneg : expr -> expr.
  (** vars_ of the converter (69-85): the box's variables, in order. *)
  Variable vars : list var.

  Section Step.
    Variable conv : expr -> cres inode.
    (** VisitAddition, 161-191: [ret] is the pointer, null at first unless the constant is not 0 *)
    Fixpoint conv_add (ret : option inode) (ts : list (expr * dbl)) : cres (option inode) :=
      match ts with
      | [] => COk ret
      | (e, k) :: ts' =>
          if deq k (dZ 1) then
            cbind (conv e) (fun n => conv_add (Some (match ret with Some r => NAdd r n | None => n end)) ts')
          else if deq k (dZ (-1)) then
            match ret with
            | Some r => cbind (conv e) (fun n => conv_add (Some (NSub r n)) ts')
            | None => cbind (conv (eneg e)) (fun n => conv_add (Some n) ts')
            end
          else
            cbind (conv e) (fun n => conv_add (Some (match ret with Some r => NAdd r (NMul (NConst k) n) | None => NMul (NConst k) n end)) ts')
      end.
    (** ProcessPow, 193-224 *)
    Definition conv_pow (b e : expr) : cres inode :=
      match e with
      | EConst v =>
          if is_integer v then cbind (conv b) (fun n => COk (NPowI n (Btrunc v)))
          else if deq v dhalf then cbind (conv b) (fun n => COk (NUn USqrt n))
          else cbind (conv b) (fun n => COk (NPowD n v))
      | _ =>
          match b with
          | EConst v => cbind (conv e) (fun n => COk (NPowC v n))
          | _ => cbind (conv b) (fun x => cbind (conv e) (fun y => COk (NBin BPow x y)))
          end
      end.
    (** VisitMultiplication, 226-242 *)
    Fixpoint conv_mul (ret : option inode) (ts : list (expr * expr)) : cres (option inode) :=
      match ts with
      | [] => COk ret
      | (b, e) :: ts' =>
          cbind (conv_pow b e) (fun n => conv_mul (Some (match ret with Some r => NMul r n | None => n end)) ts')
      end.
    (** the caller dereferences the pointer *)
    Definition deref (x : cres (option inode)) : cres inode :=
      cbind x (fun r => match r with Some n => COk n | None => CUB end).
  End Step.

  (** Visit(Expression), 127-326.  [n] bounds the depth: VisitAddition visits -e_i, which is not a
      subterm. *)
  Fixpoint conv_e (n : nat) (e : expr) : cres inode :=
    match n with
    | O => CFuel
    | S n' =>
        match e with
        | EVar v => match index_of v vars with Some i => COk (NSym i) | None => CThrow end
        | EConst c => COk (NConst c)
        | EReal l u _ => COk (NIval l u)
        | EAdd c ts => deref (conv_add (conv_e n') (if deq c dzero then None else Some (NConst c)) ts)
        | EMul c ts => deref (conv_mul (conv_e n') (if deq c (dZ 1) then None else Some (NConst c)) ts)
        | EUn o a => cbind (conv_e n' a) (fun x => COk (NUn o x))
        | EBin BPow a b => conv_pow (conv_e n') a b
        | EBin o a b => cbind (conv_e n' a) (fun x => cbind (conv_e n' b) (fun y => COk (NBin o x y)))
        | EIte _ _ _ => CThrow
        | EUf _ _ => CThrow
        end
    end.

  Definition ctr_of (n : nat) (a b : expr) (o : iop) : cres (option (inode * iop)) :=
    cbind (conv_e n (esub a b)) (fun x => COk (Some (x, o))).
  (** Visit(Formula, polarity), 329-403; [COk None] is the null pointer "no constraint". *)
  Fixpoint conv_f (n : nat) (f : formula) (pol : bool) : cres (option (inode * iop)) :=
    match f with
    | FFalse => CThrow
    | FTrue => COk None
    | FVar _ => CThrow
    | FRel o a b =>
        match o with
        | REq => if pol then ctr_of n a b OpEq else COk None
        | RNeq => if pol then COk None else ctr_of n a b OpEq
        | RGt => ctr_of n a b (if pol then OpGt else OpLeq)
        | RGeq => ctr_of n a b (if pol then OpGeq else OpLt)
        | RLt => ctr_of n a b (if pol then OpLt else OpGeq)
        | RLeq => ctr_of n a b (if pol then OpLeq else OpGt)
        end
    | FAnd _ | FOr _ => CThrow
    | FNot g => conv_f n g (negb pol)
    | FForall _ _ => CThrow
    end.
  (** Convert(Formula), 97-108 *)
  Definition ibex_convert (n : nat) (f : formula) : cres (option (inode * iop)) := conv_f n f true.

  (** make_contractor_ibex_fwdbwd, contractor.cc:138-158; [None] is an exception *)
  Definition mk_fwd (n : nat) (f : formula) : option contractor :=
    match ibex_convert n f with
    | COk None => Some CId
    | COk (Some _) => Some (CFwd f)
    | _ => None
    end.
  (** make_contractor_ibex_polytope, contractor.cc:160-177, contractor_ibex_polytope.cc:36-72:
      quantified formulas and formulas without constraint are skipped; with no constraint at all it
      is a dummy. *)
  Definition is_forall (f : formula) : bool := match f with FForall _ _ => true | _ => false end.
  Fixpoint poly_ctrs (n : nat) (fs : list formula) : option (list (inode * iop)) :=
    match fs with
    | [] => Some []
    | f :: fs' =>
        if is_forall f then poly_ctrs n fs'
        else match ibex_convert n f with
             | COk None => poly_ctrs n fs'
             | COk (Some c) => option_map (cons c) (poly_ctrs n fs')
             | _ => None
             end
    end.
  Definition mk_poly (n : nat) (fs : list formula) : option contractor :=
    match poly_ctrs n fs with
    | None => None
    | Some [] => Some CId
    | Some _ => Some (CPoly fs)
    end.

  (** GenericContractorGenerator::Visit..., generic_contractor_generator.cc:38-156 *)
  Definition is_rel (f : formula) : bool := match f with FRel _ _ _ => true | _ => false end.
  Section Gen.
    Variable use_polytope : bool.
    Fixpoint gen (n : nat) (f : formula) : option contractor :=
      match f with
      | FFalse => None
      | FTrue => Some CId
      | FVar _ => None
      | FRel _ _ _ => if use_polytope then mk_poly n [f] else mk_fwd n f
      | FAnd fs =>
          let cs := fold_right (fun g acc =>
              if use_polytope && is_rel g then acc
              else bind (gen n g) (fun c => bind acc (fun l => Some (c :: l)))) (Some []) fs in
          bind cs (fun l =>
            if use_polytope then bind (mk_poly n (filter is_rel fs)) (fun p => Some (mk_seq (l ++ [p])))
            else Some (mk_seq l))
      | FOr fs =>
          bind (fold_right (fun g acc => bind (gen n g) (fun c => bind acc (fun l => Some (c :: l)))) (Some []) fs)
               (fun l => Some (mk_join l))
      | FNot _ => None
      | FForall _ _ => None
      end.
    (** Generate, 29-36 *)
    Definition generate (fold : expr -> expr -> option dbl) (n : nat) (f : formula) : option contractor :=
      gen n (nnf_convert fold f true).
  End Gen.
End Conv.

(** ** Specification: what the library's constraint means, for a point given by its coordinates *)
Section Node.
  Variables (M : interp) (D : pdom).
  Fixpoint evalN (n : inode) (p : nat -> R) : R :=
    match n with
    | NSym i => p i
    | NConst c => B2R c
    | NIval l u => i_rc M l u
    | NAdd a b => (evalN a p + evalN b p)%R
    | NSub a b => (evalN a p - evalN b p)%R
    | NMul a b => (evalN a p * evalN b p)%R
    | NBin o a b => i_bin M o (evalN a p) (evalN b p)
    | NPowI a z => i_bin M BPow (evalN a p) (IZR z)
    | NPowD a c => i_bin M BPow (evalN a p) (B2R c)
    | NPowC c a => i_bin M BPow (B2R c) (evalN a p)
    | NUn o a => i_un M o (evalN a p)
    end.
  Fixpoint defN (n : inode) (p : nat -> R) : Prop :=
    match n with
    | NSym _ | NConst _ | NIval _ _ => True
    | NAdd a b | NSub a b | NMul a b => defN a p /\ defN b p
    | NBin o a b => defN a p /\ defN b p /\ d_bin D o (evalN a p) (evalN b p)
    | NPowI a z => defN a p /\ d_bin D BPow (evalN a p) (IZR z)
    | NPowD a c => defN a p /\ d_bin D BPow (evalN a p) (B2R c)
    | NPowC c a => defN a p /\ d_bin D BPow (B2R c) (evalN a p)
    | NUn o a => defN a p /\ d_un D o (evalN a p)
    end.
  Definition relI (o : iop) (x : R) : Prop :=
    match o with OpEq => x = 0 | OpGt => x > 0 | OpGeq => x >= 0 | OpLt => x < 0 | OpLeq => x <= 0 end%R.
  (** p solves the constraint *)
  Definition ctr_sol (c : inode * iop) (p : nat -> R) : Prop := defN (fst c) p /\ relI (snd c) (evalN (fst c) p).
End Node.
Fixpoint syms (n : inode) : list nat :=
  match n with
  | NSym i => [i]
  | NConst _ | NIval _ _ => []
  | NAdd a b | NSub a b | NMul a b | NBin _ a b => syms a ++ syms b
  | NPowI a _ | NPowD a _ | NPowC _ a | NUn _ a => syms a
  end.

(** The square root written for exponent 1/2 is the power. *)
Definition sqrt_ok (M : interp) (D : pdom) : Prop :=
  forall x, d_bin D BPow x (/ 2) -> d_un D USqrt x /\ i_un M USqrt x = i_bin M BPow x (/ 2).
(** What is assumed of unary minus on an expression. *)
Definition eneg_faithful (M : interp) (D : pdom) (eneg : expr -> expr) : Prop :=
  forall e, (finE e -> finE (eneg e)) /\ (forall v, In v (fvE (eneg e)) -> In v (fvE e)) /\
    forall rho, defE M D e rho -> defE M D (eneg e) rho /\ evalE M (eneg e) rho = (- evalE M e rho)%R.

(** ** What is assumed of the library's contractors, on an interval vector [iv] *)
Definition in_iv (p : nat -> R) (iv : list ival) : Prop := forall i, i < length iv -> imem (p i) (nth i iv IEmpty).
Definition ibex_step_ok (M : interp) (D : pdom) (cs : list (inode * iop)) (iv iv' : list ival) : Prop :=
  length iv' = length iv /\ Forall i_ok iv' /\ iv_sub iv' iv /\
  (forall p, in_iv p iv -> (forall c, In c cs -> ctr_sol M D c p) -> in_iv p iv') /\
  (Forall (fun i => i_empty i = false) iv -> Forall (fun i => i = IEmpty) iv' \/
     (Forall (fun i => i_empty i = false) iv' /\
      forall i, i < length iv -> (forall c, In c cs -> ~ In i (syms (fst c))) -> nth i iv' IEmpty = nth i iv IEmpty)).
Record ibex := {
  ib_backward : inode * iop -> list ival -> bool * list ival;    (* Function::backward (HC4Revise) *)
  ib_polytope : list (inode * iop) -> list ival -> list ival     (* CtcPolytopeHull::contract *)
}.
Definition ibex_ok (M : interp) (D : pdom) (L : ibex) : Prop :=
  (forall c iv, iv <> [] -> Forall i_ok iv ->
     ibex_step_ok M D [c] iv (snd (ib_backward L c iv)) /\ (fst (ib_backward L c iv) = true -> snd (ib_backward L c iv) = iv)) /\
  (forall cs iv, iv <> [] -> Forall i_ok iv -> ibex_step_ok M D cs iv (ib_polytope L cs iv)).

(** The pruning steps of Contr.v obtained from the library through the translation. *)
Definition ibex_oracles (L : ibex) (esub : expr -> expr -> expr) (eneg : expr -> expr) (n : nat)
    (fa : formula -> box -> option (list ival)) : oracles :=
  {| o_bwd := fun f b => match ibex_convert esub eneg (bvars b) n f with
                         | COk (Some c) => ib_backward L c (bvals b)
                         | _ => (true, bvals b)
                         end;
     o_poly := fun fs b => match poly_ctrs esub eneg (bvars b) n fs with
                           | Some cs => ib_polytope L cs (bvals b)
                           | None => bvals b
                           end;
     o_fa := fa |}.
