(** * Specification: when the simplifier's assumptions about numbers hold

    The operations of ExprAlg.v record each place where the code relies on a fact about numbers that it
    does not check.  [exact M s] says that the fact holds. *)
From Coq Require Import ZArith Reals List Bool ClassicalDescription.
From Flocq Require Import IEEE754.BinarySingleNaN.
From Verif Require Import Dbl Syntax Sem IEval StdInterp Order ExprAlg.
Import ListNotations.
Local Open Scope R_scope.

Definition exact (M : interp) (s : step) : Prop :=
  match s with
  | SAdd a b => is_finite (dadd a b) = true /\ B2R (dadd a b) = B2R a + B2R b
  | SMul a b => is_finite (dmul a b) = true /\ B2R (dmul a b) = B2R a * B2R b
  | SDiv a b => is_finite (ddiv a b) = true /\ B2R (ddiv a b) = B2R a / B2R b
  | SPow a b r => is_finite r = true /\ B2R r = i_bin M BPow (B2R a) (B2R b)
  | SMinMax a b => is_finite a = true /\ is_finite b = true
  | SKey k k' => forall rho, evalE M k rho = evalE M k' rho
  | SLit lb ub u => i_rc M lb ub = B2R (rep lb ub u)
  | SPowPow e => isint (B2R e)
  | SCmp c => is_finite c = true
  end.

(** Everything but the lookups. *)
Definition exactN (M : interp) (s : step) : Prop := match s with SKey _ _ => True | _ => exact M s end.

(** The computation [c], if it ends with an expression and every recorded assumption holds, ends with one
    that is defined at [rho] and has the value [v] there. *)
Definition yields (M : interp) (D : pdom) (c : comp expr) (rho : env) (v : R) : Prop :=
  forall r t, c = (Val r, t) -> Forall (exact M) t -> defE M D r rho /\ evalE M r rho = v.

(** ** Terms without decimal literals

    Every constant is finite, every variable has the type [ty] assigns to its identifier. *)
Section Plain.
  Variable ty : nat -> vtype.
  Definition tyv (v : var) : Prop := vty v = ty (vid v).
  Fixpoint plainE (e : expr) : Prop :=
    match e with
    | EConst c => is_finite c = true
    | EReal _ _ _ => False
    | EVar v => tyv v
    | EAdd c ts => is_finite c = true /\
        fold_right (fun p acc => match p with (a, k) => (plainE a /\ is_finite k = true) /\ acc end) True ts
    | EMul c ts => is_finite c = true /\
        fold_right (fun p acc => match p with (a, b) => (plainE a /\ plainE b) /\ acc end) True ts
    | EUn _ a => plainE a
    | EBin _ a b => plainE a /\ plainE b
    | EIte f a b => plainF f /\ plainE a /\ plainE b
    | EUf _ vs => forall v, In v vs -> tyv v
    end
  with plainF (f : formula) : Prop :=
    match f with
    | FTrue | FFalse => True
    | FVar v => tyv v
    | FRel _ a b => plainE a /\ plainE b
    | FAnd fs => fold_right (fun g acc => plainF g /\ acc) True fs
    | FOr fs => fold_right (fun g acc => plainF g /\ acc) True fs
    | FNot g => plainF g
    | FForall vs g => (forall v, In v vs -> tyv v) /\ plainF g
    end.
End Plain.

(** ** Substitution *)

(** The last binding wins is not an issue: the code's substitutions are maps, so keys are distinct; the
    first binding is used here.  A Boolean variable is replaced by a formula, any other by an expression. *)
Definition image {A} (v : var) (s : list (var * A)) : option A :=
  match find (fun p => var_eqb v (fst p)) s with Some p => Some (snd p) | None => None end.
Definition imgE (sE : list (var * expr)) (sF : list (var * formula)) (v : var) : option expr :=
  match vty v with BOOLEAN => None | _ => image v sE end.
Definition imgF (sE : list (var * expr)) (sF : list (var * formula)) (v : var) : option formula :=
  match vty v with BOOLEAN => image v sF | _ => None end.

(** [rho] with every substituted variable given the value of what replaces it. *)
Definition updated (M : interp) (sE : list (var * expr)) (sF : list (var * formula)) (rho : env) : env :=
  fun v => match imgE sE sF v, imgF sE sF v with
           | Some e, _ => evalE M e rho
           | _, Some f => if excluded_middle_informative (holds M f rho) then 1 else 0
           | None, None => rho v
           end.
(** The variables in what replaces [v] (nothing if [v] is not substituted). *)
Definition ivars (sE : list (var * expr)) (sF : list (var * formula)) (v : var) : list var :=
  match imgE sE sF v, imgF sE sF v with
  | Some e, _ => fvE e
  | _, Some f => fvF f
  | None, None => []
  end.
(** What replaces [v] is defined at [rho]. *)
Definition idef (M : interp) (D : pdom) (sE : list (var * expr)) (sF : list (var * formula)) (rho : env) (v : var) : Prop :=
  match imgE sE sF v, imgF sE sF v with
  | Some e, _ => defE M D e rho
  | _, Some f => defF M D f rho
  | None, None => True
  end.

(** Boolean variables are used as formulas, the others as terms; a quantifier binds no variable of a term
    substituted below it; no uninterpreted function has arguments. *)
Section Subst_ok.
  Variables (sE : list (var * expr)) (sF : list (var * formula)).
  (** [bs]: the variables bound on the way *)
  Fixpoint sokE (bs : list var) (e : expr) : Prop :=
    match e with
    | EConst _ | EReal _ _ _ => True
    | EVar v => vty v <> BOOLEAN /\ (~ In v bs -> forall w, In w bs -> ~ In w (ivars sE sF v))
    | EAdd _ ts => fold_right (fun p acc => match p with (a, _) => sokE bs a /\ acc end) True ts
    | EMul _ ts => fold_right (fun p acc => match p with (a, b) => (sokE bs a /\ sokE bs b) /\ acc end) True ts
    | EUn _ a => sokE bs a
    | EBin _ a b => sokE bs a /\ sokE bs b
    | EIte f a b => sokF bs f /\ sokE bs a /\ sokE bs b
    | EUf _ vs => vs = []
    end
  with sokF (bs : list var) (f : formula) : Prop :=
    match f with
    | FTrue | FFalse => True
    | FVar v => vty v = BOOLEAN /\ (~ In v bs -> forall w, In w bs -> ~ In w (ivars sE sF v))
    | FRel _ a b => sokE bs a /\ sokE bs b
    | FAnd fs => fold_right (fun g acc => sokF bs g /\ acc) True fs
    | FOr fs => fold_right (fun g acc => sokF bs g /\ acc) True fs
    | FNot g => sokF bs g
    | FForall vs g => sokF (vs ++ bs) g
    end.
End Subst_ok.

(** ** Strengthening by delta

    [slack M d f rho]: the formula holds with room [d] in every comparison under an even number of negations,
    and with tolerance [d] in every comparison under an odd number ([d < 0]: the other way round).  An equation
    has no room: strengthening keeps it, weakening allows a difference of [-d]. *)
Definition slackR (d : R) (op : relop) (a b : R) : Prop :=
  match op with
  | REq => if Rlt_dec 0 d then a = b else Rabs (a - b) <= - d
  | RNeq => if Rlt_dec 0 d then Rabs (a - b) > d else True
  | RGt => a > b + d
  | RGeq => a >= b + d
  | RLt => a + d < b
  | RLeq => a + d <= b
  end.
Section Slack.
  Variable M : interp.
  Fixpoint slack (d : R) (f : formula) (rho : env) {struct f} : Prop :=
    match f with
    | FTrue => True
    | FFalse => False
    | FVar v => rho v = 1
    | FRel op a b => slackR d op (evalE M a rho) (evalE M b rho)
    | FAnd fs => fold_right (fun g acc => slack d g rho /\ acc) True fs
    | FOr fs => fold_right (fun g acc => slack d g rho \/ acc) False fs
    | FNot g => ~ slack (- d) g rho
    | FForall vs g => forall rho', agree_off vs rho rho' ->
                        (forall v, In v vs -> typed_val (vty v) (rho' v)) -> slack d g rho'
    end.
End Slack.
