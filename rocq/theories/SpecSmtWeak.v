(** * Specification: delta-sat answers for SMT-LIB scripts (C02)

    The delta-weakening given directly on the terms of a script, and the assertions of a script that are in
    force at each of its checks. *)
From Coq Require Import ZArith Reals List Bool.
From Flocq Require Import IEEE754.BinarySingleNaN.
From Verif Require Import Dbl Syntax Sem FormulaCons Interval Theory ExprAlg IEval Filter Context SpecCtx SpecModel SpecWeak Smt2 SpecSmt2.
Import ListNotations.
Local Open Scope R_scope.

(** [sweak pol t E]: the delta-weakening of [t], or of its negation if [pol] is false.  Comparisons may be
    excused by [exc].  Under negations the weakening of the negation is meant, so that both a term and its
    negation can hold.  Nothing is said about quantifiers, let and calls of Boolean functions. *)
Section Weak.
  Variables (M : interp) (FN : fenv) (delta : R) (exc : sterm -> sterm -> Prop).
  (** exclusive or of [p] and [q]: what is said by it, what by its negation *)
  Definition xor_weak (p q : Prop * Prop) : Prop * Prop :=
    ((fst p /\ snd q) \/ (snd p /\ fst q), (snd p \/ fst q) /\ (fst p \/ snd q)).
  Fixpoint sweak (pol : bool) (t : sterm) (E : nenv) {struct t} : Prop :=
    match t with
    | STrue => pol = true
    | SFalse => pol = false
    | SSym x => E x = VB pol
    | SRel o a b => weakR delta (if pol then o else relop_neg o) (vr (den M FN a E)) (vr (den M FN b E)) \/ exc a b
    | SEq a b =>
        match den M FN a E, den M FN b E with
        | VR x, VR y => weakR delta (if pol then REq else RNeq) x y \/ exc a b
        | _, _ => if pol then (sweak false a E \/ sweak true b E) /\ (sweak false b E \/ sweak true a E)
                  else (sweak true a E /\ sweak false b E) \/ (sweak true b E /\ sweak false a E)
        end
    | SAnd l => if pol then fold_right (fun a acc => sweak true a E /\ acc) True l else fold_right (fun a acc => sweak false a E \/ acc) False l
    | SOr l => if pol then fold_right (fun a acc => sweak true a E \/ acc) False l else fold_right (fun a acc => sweak false a E /\ acc) True l
    | SXor l => let r := fold_left xor_weak (map (fun a => (sweak true a E, sweak false a E)) l) (False, True) in if pol then fst r else snd r
    | SNot a => sweak (negb pol) a E
    | SImp a b => if pol then sweak false a E \/ sweak true b E else sweak true a E /\ sweak false b E
    | SIte c a b => if pol then (sweak false c E \/ sweak true a E) /\ (sweak true c E \/ sweak true b E)
                    else (sweak true c E /\ sweak false a E) \/ (sweak false c E /\ sweak false b E)
    | SAri _ a [] => sweak pol a E
    | _ => True
    end.
End Weak.

(** ** Assertions in force

    An assertion of a script: the commands before it, and its term. *)
Definition item := (list scmd * sterm)%type.
Fixpoint popn {X} (k : nat) (a : X) (z : list X) : X * list X :=
  match k, z with S k', b :: z' => popn k' b z' | _, _ => (a, z) end%nat.
(** For every check, the assertions in force. *)
Fixpoint in_force (cs pre : list scmd) (now : list item) (saved : list (list item)) : list (list item) :=
  match cs with
  | [] => []
  | c :: r =>
      match c with
      | KAssert t => in_force r (pre ++ [c]) ((pre, t) :: now) saved
      | KPush k => in_force r (pre ++ [c]) now (repeat now k ++ saved)
      | KPop k => in_force r (pre ++ [c]) (fst (popn k now saved)) (snd (popn k now saved))
      | KCheck _ => now :: in_force r (pre ++ [c]) now saved
      | KDeclare _ _ _ | KDefine _ _ _ _ => in_force r (pre ++ [c]) now saved
      end
  end.

(** [x] is the expression that the front end builds for the term [a] of an assertion preceded by [pre] (it has
    the value of [a], see [C34_terms_partial]). *)
Definition built_for (fpow : dbl -> dbl -> dbl) (n : nat) (alloc : nat -> nat) (pre : list scmd) (a : sterm) (x : expr) : Prop :=
  exists s0 t0 s s' t, script fpow n alloc pre drv0 = (Val s0, t0) /\ d_scope s = d_scope s0 /\ d_funs s = d_funs s0 /\ elab fpow n alloc a s = (Val (TmE x, s'), t).
(** A comparison of the script is excused if [exc] excuses the comparison of the expressions built for its sides. *)
Definition script_excused (fpow : dbl -> dbl -> dbl) (n : nat) (alloc : nat -> nat) (exc : expr -> expr -> env -> Prop) (pre : list scmd) (rho : env) (a b : sterm) : Prop :=
  exists x y, built_for fpow n alloc pre a x /\ built_for fpow n alloc pre b y /\ exc x y rho.
(** The assertion [i] holds up to [delta] for the values [V]. *)
Definition item_weak (M : interp) (D : pdom) (V : nat -> value) (delta : R) (exc : list scmd -> sterm -> sterm -> Prop) (i : item) : Prop :=
  let s := s_run M D V (fst i) s_init in sweak M (ss_funs s) delta (exc (fst i)) true (snd i) (ss_env s).
(** The answer [r] about a check at which the assertions [A] are in force: an accepted box [B] which the reported
    model tightens; every assignment in [B] satisfies the weakened assertions. *)
Definition script_delta_ok (fpow : dbl -> dbl -> dbl) (n : nat) (alloc : nat -> nat) (M : interp) (D : pdom) (mid : dbl -> dbl -> dbl) (precision : dbl)
    (cs : list scmd) (ops : list Context.cop) (A : list item) (r : option box) : Prop :=
  forall m, r = Some m -> exists B, box_ok B /\ b_empty B = false /\
    (forall v, In v (bvars m) -> In v (bvars B) /\ ((exists x, imem x (b_getv B v)) -> tight_ok precision (vty v) (b_getv B v) (b_getv m v))) /\
    forall V rho, reads V ops rho -> s_defd M D V cs s_init -> s_sorted V cs 0 -> (forall v, In v (bvars B) -> imem (rho v) (b_getv B v)) ->
      forall i, In i A -> has_let (snd i) = false -> item_weak M D V (B2R precision) (fun pre => script_excused fpow n alloc (unguarded M D mid (B2R precision) B) pre rho) i.
