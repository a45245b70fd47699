(** * Symbolic expressions and formulas

    Models the abstract syntax of
    third_party/com_github_robotlocomotion_drake/dreal/symbolic:
    - symbolic_variable.h:30-37 (Variable::Type), symbolic_variable.cc:60-66 (identity by id)
    - symbolic_expression.h:35-70 (ExpressionKind)
    - symbolic_formula.h:33-50 (FormulaKind)

    Simplifications: reference counting and hashing are dropped; a variable's name is dropped
    (identity is the id); the ordered [std::set]/[std::map] operand containers are lists. *)
From Coq Require Import ZArith List Bool Lia.
From Flocq Require Import IEEE754.BinarySingleNaN.
From Verif Require Import Dbl.
Import ListNotations.

Inductive vtype := CONTINUOUS | INTEGER | BINARY | BOOLEAN.

Record var := mkVar { vid : nat; vty : vtype }.

Inductive unop := ULog | UAbs | UExp | USqrt | USin | UCos | UTan | UAsin | UAcos | UAtan
                | USinh | UCosh | UTanh.
Inductive binop := BDiv | BPow | BAtan2 | BMin | BMax.
Inductive relop := REq | RNeq | RGt | RGeq | RLt | RLeq.

Inductive expr :=
| EConst (c : dbl)                               (* ExpressionConstant *)
| EReal (lb ub : dbl) (use_lb : bool)            (* ExpressionRealConstant *)
| EVar (v : var)                                 (* ExpressionVar *)
| EAdd (c : dbl) (ts : list (expr * dbl))        (* c + sum coeff_i * e_i *)
| EMul (c : dbl) (ts : list (expr * expr))       (* c * prod pow(b_i, e_i) *)
| EUn (op : unop) (e : expr)
| EBin (op : binop) (e1 e2 : expr)
| EIte (f : formula) (e1 e2 : expr)              (* ExpressionIfThenElse *)
| EUf (name : nat) (vs : list var)               (* ExpressionUninterpretedFunction *)
with formula :=
| FTrue
| FFalse
| FVar (v : var)
| FRel (op : relop) (e1 e2 : expr)
| FAnd (fs : list formula)
| FOr (fs : list formula)
| FNot (f : formula)
| FForall (vs : list var) (f : formula).

(** Decidable equality.  [Variable::equal_to] compares ids only; in the model a variable is the
    pair (id, type), and ids are assigned once, so the two coincide on every program state. *)
Definition vtype_eqb (a b : vtype) : bool :=
  match a, b with
  | CONTINUOUS, CONTINUOUS | INTEGER, INTEGER | BINARY, BINARY | BOOLEAN, BOOLEAN => true
  | _, _ => false
  end.
Definition var_eqb (a b : var) : bool := Nat.eqb (vid a) (vid b) && vtype_eqb (vty a) (vty b).
Definition mem_var (v : var) (l : list var) : bool := existsb (var_eqb v) l.

(** Free variables.  symbolic_expression_cell.cc: ExtractVariables (526-533 for Add, and the
    analogous functions of the other cells); symbolic_formula_cell.cc:539-543 for forall. *)
Fixpoint fvE (e : expr) : list var :=
  match e with
  | EConst _ | EReal _ _ _ => []
  | EVar v => [v]
  | EAdd _ ts => flat_map (fun p => match p with (a, _) => fvE a end) ts
  | EMul _ ts => flat_map (fun p => match p with (a, b) => fvE a ++ fvE b end) ts
  | EUn _ a => fvE a
  | EBin _ a b => fvE a ++ fvE b
  | EIte f a b => fvF f ++ fvE a ++ fvE b
  | EUf _ vs => vs
  end
with fvF (f : formula) : list var :=
  match f with
  | FTrue | FFalse => []
  | FVar v => [v]
  | FRel _ a b => fvE a ++ fvE b
  | FAnd fs => flat_map fvF fs
  | FOr fs => flat_map fvF fs
  | FNot g => fvF g
  | FForall vs g => filter (fun v => negb (mem_var v vs)) (fvF g)
  end.

(** Size, used as recursion measure. *)
Fixpoint szE (e : expr) : nat :=
  match e with
  | EConst _ | EReal _ _ _ | EVar _ | EUf _ _ => 1
  | EAdd _ ts => S (fold_right (fun p n => match p with (a, _) => szE a + n end) 0 ts)
  | EMul _ ts => S (fold_right (fun p n => match p with (a, b) => szE a + szE b + n end) 0 ts)
  | EUn _ a => S (szE a)
  | EBin _ a b => S (szE a + szE b)
  | EIte f a b => S (szF f + szE a + szE b)
  end
with szF (f : formula) : nat :=
  match f with
  | FTrue | FFalse | FVar _ => 1
  | FRel _ a b => S (szE a + szE b)
  | FAnd fs => S (fold_right (fun g n => szF g + n) 0 fs)
  | FOr fs => S (fold_right (fun g n => szF g + n) 0 fs)
  | FNot g => S (szF g)
  | FForall _ g => S (szF g)
  end.

(** [Expression::include_ite] / [Formula::include_ite]
    (symbolic_expression_cell.cc:71-113, symbolic_formula_cell.cc constructors). *)
Fixpoint hasIteE (e : expr) : bool :=
  match e with
  | EConst _ | EReal _ _ _ | EVar _ | EUf _ _ => false
  | EAdd _ ts => existsb (fun p => match p with (a, _) => hasIteE a end) ts
  | EMul _ ts => existsb (fun p => match p with (a, b) => hasIteE a || hasIteE b end) ts
  | EUn _ a => hasIteE a
  | EBin _ a b => hasIteE a || hasIteE b
  | EIte _ _ _ => true
  end.
Fixpoint hasIteF (f : formula) : bool :=
  match f with
  | FTrue | FFalse | FVar _ => false
  | FRel _ a b => hasIteE a || hasIteE b
  | FAnd fs => existsb hasIteF fs
  | FOr fs => existsb hasIteF fs
  | FNot g => hasIteF g
  | FForall _ g => hasIteF g
  end.

(** Induction principles that see through the operand lists. *)
Section Ind.
  Variable P : expr -> Prop.
  Variable Q : formula -> Prop.
  Hypothesis Hc : forall c, P (EConst c).
  Hypothesis Hr : forall a b u, P (EReal a b u).
  Hypothesis Hv : forall v, P (EVar v).
  Hypothesis Ha : forall c ts, Forall (fun p => P (fst p)) ts -> P (EAdd c ts).
  Hypothesis Hm : forall c ts, Forall (fun p => P (fst p) /\ P (snd p)) ts -> P (EMul c ts).
  Hypothesis Hu : forall o a, P a -> P (EUn o a).
  Hypothesis Hb : forall o a b, P a -> P b -> P (EBin o a b).
  Hypothesis Hi : forall f a b, Q f -> P a -> P b -> P (EIte f a b).
  Hypothesis Huf : forall n vs, P (EUf n vs).
  Hypothesis Ht : Q FTrue.
  Hypothesis Hf : Q FFalse.
  Hypothesis Hfv : forall v, Q (FVar v).
  Hypothesis Hrel : forall o a b, P a -> P b -> Q (FRel o a b).
  Hypothesis Hand : forall fs, Forall Q fs -> Q (FAnd fs).
  Hypothesis Hor : forall fs, Forall Q fs -> Q (FOr fs).
  Hypothesis Hnot : forall f, Q f -> Q (FNot f).
  Hypothesis Hall : forall vs f, Q f -> Q (FForall vs f).

  Fixpoint expr_ind2 (e : expr) : P e :=
    match e with
    | EConst c => Hc c
    | EReal a b u => Hr a b u
    | EVar v => Hv v
    | EAdd c ts =>
        Ha c ts ((fix go (l : list (expr * dbl)) : Forall (fun p => P (fst p)) l :=
          match l with
          | [] => Forall_nil _
          | (a, k) :: l' => Forall_cons (a, k) (expr_ind2 a) (go l')
          end) ts)
    | EMul c ts =>
        Hm c ts ((fix go (l : list (expr * expr)) : Forall (fun p => P (fst p) /\ P (snd p)) l :=
          match l with
          | [] => Forall_nil _
          | (a, b) :: l' => Forall_cons (a, b) (conj (expr_ind2 a) (expr_ind2 b)) (go l')
          end) ts)
    | EUn o a => Hu o a (expr_ind2 a)
    | EBin o a b => Hb o a b (expr_ind2 a) (expr_ind2 b)
    | EIte f a b => Hi f a b (formula_ind2 f) (expr_ind2 a) (expr_ind2 b)
    | EUf n vs => Huf n vs
    end
  with formula_ind2 (f : formula) : Q f :=
    match f with
    | FTrue => Ht
    | FFalse => Hf
    | FVar v => Hfv v
    | FRel o a b => Hrel o a b (expr_ind2 a) (expr_ind2 b)
    | FAnd fs =>
        Hand fs ((fix go (l : list formula) : Forall Q l :=
          match l with
          | [] => Forall_nil _
          | g :: l' => Forall_cons g (formula_ind2 g) (go l')
          end) fs)
    | FOr fs =>
        Hor fs ((fix go (l : list formula) : Forall Q l :=
          match l with
          | [] => Forall_nil _
          | g :: l' => Forall_cons g (formula_ind2 g) (go l')
          end) fs)
    | FNot g => Hnot g (formula_ind2 g)
    | FForall vs g => Hall vs g (formula_ind2 g)
    end.

  Lemma expr_formula_ind2 : (forall e, P e) /\ (forall f, Q f).
  Proof. split; [exact expr_ind2 | exact formula_ind2]. Qed.
End Ind.

(** Induction over formulas when the expressions inside do not matter. *)
Section IndF.
  Variable Q : formula -> Prop.
  Hypothesis Ht : Q FTrue.
  Hypothesis Hf : Q FFalse.
  Hypothesis Hfv : forall v, Q (FVar v).
  Hypothesis Hrel : forall o a b, Q (FRel o a b).
  Hypothesis Hand : forall fs, Forall Q fs -> Q (FAnd fs).
  Hypothesis Hor : forall fs, Forall Q fs -> Q (FOr fs).
  Hypothesis Hnot : forall f, Q f -> Q (FNot f).
  Hypothesis Hall : forall vs f, Q f -> Q (FForall vs f).
  Fixpoint formula_ind' (f : formula) : Q f :=
    match f with
    | FTrue => Ht
    | FFalse => Hf
    | FVar v => Hfv v
    | FRel o a b => Hrel o a b
    | FAnd fs =>
        Hand fs ((fix go (l : list formula) : Forall Q l :=
          match l with
          | [] => Forall_nil _
          | g :: l' => Forall_cons g (formula_ind' g) (go l')
          end) fs)
    | FOr fs =>
        Hor fs ((fix go (l : list formula) : Forall Q l :=
          match l with
          | [] => Forall_nil _
          | g :: l' => Forall_cons g (formula_ind' g) (go l')
          end) fs)
    | FNot g => Hnot g (formula_ind' g)
    | FForall vs g => Hall vs g (formula_ind' g)
    end.
End IndF.

(** Decidable equality of doubles, variables, expressions and formulas. *)
Definition dbl_eq_dec (x y : dbl) : {x = y} + {x <> y}.
Proof.
  destruct x as [s|s| |s m e H], y as [s'|s'| |s' m' e' H'];
    try (right; discriminate).
  - destruct (bool_dec s s'); [left; congruence | right; congruence].
  - destruct (bool_dec s s'); [left; congruence | right; congruence].
  - left; reflexivity.
  - destruct (bool_dec s s') as [->|]; [|right; congruence].
    destruct (Pos.eq_dec m m') as [->|]; [|right; congruence].
    destruct (Z.eq_dec e e') as [->|]; [|right; congruence].
    left. f_equal. apply Eqdep_dec.UIP_dec, bool_dec.
Defined.

Definition var_eq_dec (x y : var) : {x = y} + {x <> y}.
Proof. decide equality; [decide equality | apply Nat.eq_dec]. Defined.

Definition dbl_eqb (x y : dbl) : bool := if dbl_eq_dec x y then true else false.
Definition unop_eqb (a b : unop) : bool :=
  match a, b with
  | ULog, ULog | UAbs, UAbs | UExp, UExp | USqrt, USqrt | USin, USin | UCos, UCos | UTan, UTan
  | UAsin, UAsin | UAcos, UAcos | UAtan, UAtan | USinh, USinh | UCosh, UCosh | UTanh, UTanh => true
  | _, _ => false
  end.
Definition binop_eqb (a b : binop) : bool :=
  match a, b with
  | BDiv, BDiv | BPow, BPow | BAtan2, BAtan2 | BMin, BMin | BMax, BMax => true
  | _, _ => false
  end.
Definition relop_eqb (a b : relop) : bool :=
  match a, b with
  | REq, REq | RNeq, RNeq | RGt, RGt | RGeq, RGeq | RLt, RLt | RLeq, RLeq => true
  | _, _ => false
  end.

Section ListEqb.
  Context {A : Type} (eqb : A -> A -> bool).
  Fixpoint list_eqb (l m : list A) : bool :=
    match l, m with
    | [], [] => true
    | x :: l', y :: m' => eqb x y && list_eqb l' m'
    | _, _ => false
    end.
End ListEqb.

(** Structural equality, [EqualTo] in symbolic_expression_cell.cc / symbolic_formula_cell.cc.
    Simplification: [EqualTo] compares constants with [==], which identifies 0.0 and -0.0; the
    constructors normalise -0.0 to 0.0 (symbolic_expression.cc:134) so syntactic equality is the same. *)
Fixpoint expr_eqb (x y : expr) {struct x} : bool :=
  match x, y with
  | EConst a, EConst b => dbl_eqb a b
  | EReal a b u, EReal a' b' u' => dbl_eqb a a' && dbl_eqb b b' && Bool.eqb u u'
  | EVar v, EVar w => var_eqb v w
  | EAdd c ts, EAdd d us =>
      dbl_eqb c d &&
      list_eqb (fun (p : expr * dbl) (q : expr * dbl) =>
        match p with (a, k) => match q with (b, j) => expr_eqb a b && dbl_eqb k j end end) ts us
  | EMul c ts, EMul d us =>
      dbl_eqb c d &&
      list_eqb (fun (p : expr * expr) (q : expr * expr) =>
        match p with (a, k) => match q with (b, j) => expr_eqb a b && expr_eqb k j end end) ts us
  | EUn o a, EUn o' b => unop_eqb o o' && expr_eqb a b
  | EBin o a b, EBin o' c d => binop_eqb o o' && expr_eqb a c && expr_eqb b d
  | EIte f a b, EIte g c d => formula_eqb f g && expr_eqb a c && expr_eqb b d
  | EUf n vs, EUf m ws => Nat.eqb n m && list_eqb var_eqb vs ws
  | _, _ => false
  end
with formula_eqb (x y : formula) {struct x} : bool :=
  match x, y with
  | FTrue, FTrue => true
  | FFalse, FFalse => true
  | FVar v, FVar w => var_eqb v w
  | FRel o a b, FRel o' c d => relop_eqb o o' && expr_eqb a c && expr_eqb b d
  | FAnd fs, FAnd gs => list_eqb formula_eqb fs gs
  | FOr fs, FOr gs => list_eqb formula_eqb fs gs
  | FNot f, FNot g => formula_eqb f g
  | FForall vs f, FForall ws g => list_eqb var_eqb vs ws && formula_eqb f g
  | _, _ => false
  end.

Lemma var_eqb_eq a b : var_eqb a b = true <-> a = b.
Proof.
  destruct a as [i t], b as [j u]; unfold var_eqb; simpl. rewrite andb_true_iff, Nat.eqb_eq.
  split.
  - intros [-> H]. destruct t, u; simpl in H; congruence.
  - intros H; inversion H; subst. split; auto. destruct u; reflexivity.
Qed.
Lemma dbl_eqb_eq a b : dbl_eqb a b = true <-> a = b.
Proof. unfold dbl_eqb; destruct (dbl_eq_dec a b); split; congruence. Qed.
Lemma unop_eqb_eq a b : unop_eqb a b = true <-> a = b.
Proof. destruct a, b; simpl; split; congruence. Qed.
Lemma binop_eqb_eq a b : binop_eqb a b = true <-> a = b.
Proof. destruct a, b; simpl; split; congruence. Qed.
Lemma relop_eqb_eq a b : relop_eqb a b = true <-> a = b.
Proof. destruct a, b; simpl; split; congruence. Qed.

Lemma list_eqb_eq {A} (eqb : A -> A -> bool) (l m : list A) :
  Forall (fun x => forall y, eqb x y = true <-> x = y) l ->
  (list_eqb eqb l m = true <-> l = m).
Proof.
  intros H; revert m; induction H as [|x l Hx Hl IH]; intros [|y m]; simpl; split; try congruence.
  - rewrite andb_true_iff, Hx, IH. intros [-> ->]; reflexivity.
  - intros E; inversion E; subst. rewrite andb_true_iff, Hx, IH; auto.
Qed.

Lemma list_var_eqb_eq l m : list_eqb var_eqb l m = true <-> l = m.
Proof. apply list_eqb_eq. apply Forall_forall; intros x _ y; apply var_eqb_eq. Qed.

Lemma expr_formula_eqb_eq :
  (forall x y, expr_eqb x y = true <-> x = y) /\ (forall f g, formula_eqb f g = true <-> f = g).
Proof.
  apply expr_formula_ind2.
  - intros c y; destruct y; simpl; try (split; discriminate). rewrite dbl_eqb_eq. split; congruence.
  - intros a b u y; destruct y; simpl; try (split; discriminate).
    rewrite !andb_true_iff, !dbl_eqb_eq, Bool.eqb_true_iff. split; [intros [[-> ->] ->]|]; intuition congruence.
  - intros v y; destruct y; simpl; try (split; discriminate). rewrite var_eqb_eq. split; congruence.
  - intros c ts H y; destruct y; simpl; try (split; discriminate).
    rewrite andb_true_iff, dbl_eqb_eq, list_eqb_eq.
    + split; [intros [-> ->]|]; intuition congruence.
    + eapply Forall_impl; [|exact H]. intros [a k] Ha [b j]. simpl in *.
      rewrite andb_true_iff, Ha, dbl_eqb_eq. split; [intros [-> ->]|]; intuition congruence.
  - intros c ts H y; destruct y; simpl; try (split; discriminate).
    rewrite andb_true_iff, dbl_eqb_eq, list_eqb_eq.
    + split; [intros [-> ->]|]; intuition congruence.
    + eapply Forall_impl; [|exact H]. intros [a k] [Ha Hk] [b j]. simpl in *.
      rewrite andb_true_iff, Ha, Hk. split; [intros [-> ->]|]; intuition congruence.
  - intros o a IH y; destruct y; simpl; try (split; discriminate).
    rewrite andb_true_iff, unop_eqb_eq, IH. split; [intros [-> ->]|]; intuition congruence.
  - intros o a b IH1 IH2 y; destruct y; simpl; try (split; discriminate).
    rewrite !andb_true_iff, binop_eqb_eq, IH1, IH2. split; [intros [[-> ->] ->]|]; intuition congruence.
  - intros f a b IH0 IH1 IH2 y; destruct y; simpl; try (split; discriminate).
    rewrite !andb_true_iff, IH0, IH1, IH2. split; [intros [[-> ->] ->]|]; intuition congruence.
  - intros n vs y; destruct y; simpl; try (split; discriminate).
    rewrite andb_true_iff, Nat.eqb_eq, list_var_eqb_eq. split; [intros [-> ->]|]; intuition congruence.
  - intros g; destruct g; simpl; split; congruence.
  - intros g; destruct g; simpl; split; congruence.
  - intros v g; destruct g; simpl; try (split; discriminate). rewrite var_eqb_eq. split; congruence.
  - intros o a b IH1 IH2 y; destruct y; simpl; try (split; discriminate).
    rewrite !andb_true_iff, relop_eqb_eq, IH1, IH2. split; [intros [[-> ->] ->]|]; intuition congruence.
  - intros fs H g; destruct g; simpl; try (split; discriminate). rewrite list_eqb_eq by exact H.
    split; congruence.
  - intros fs H g; destruct g; simpl; try (split; discriminate). rewrite list_eqb_eq by exact H.
    split; congruence.
  - intros f IH g; destruct g; simpl; try (split; discriminate). rewrite IH. split; congruence.
  - intros vs f IH g; destruct g; simpl; try (split; discriminate).
    rewrite andb_true_iff, list_var_eqb_eq, IH. split; [intros [-> ->]|]; intuition congruence.
Qed.

Lemma expr_eqb_eq x y : expr_eqb x y = true <-> x = y.
Proof. apply expr_formula_eqb_eq. Qed.
Lemma formula_eqb_eq f g : formula_eqb f g = true <-> f = g.
Proof. apply expr_formula_eqb_eq. Qed.
Lemma formula_eqb_refl f : formula_eqb f f = true.
Proof. apply formula_eqb_eq; reflexivity. Qed.
Lemma var_eqb_refl v : var_eqb v v = true.
Proof. apply var_eqb_eq; reflexivity. Qed.

Lemma mem_var_In v l : mem_var v l = true <-> In v l.
Proof.
  unfold mem_var. rewrite existsb_exists. split.
  - intros (x & Hx & E). apply var_eqb_eq in E. subst; auto.
  - intros H; exists v; split; auto. apply var_eqb_refl.
Qed.
Definition formula_eq_dec (f g : formula) : {f = g} + {f <> g}.
Proof. destruct (formula_eqb f g) eqn:E; [left; now apply formula_eqb_eq | right; intro H; apply formula_eqb_eq in H; congruence]. Defined.
Definition expr_eq_dec (f g : expr) : {f = g} + {f <> g}.
Proof. destruct (expr_eqb f g) eqn:E; [left; now apply expr_eqb_eq | right; intro H; apply expr_eqb_eq in H; congruence]. Defined.
