(** * Specification: what SMT-LIB terms and scripts mean

    The standard's semantics over the reals, given directly on the syntax tree: no formula of the solver
    and no state of the front end occurs here. *)
From Coq Require Import ZArith Reals List Bool ClassicalDescription.
From Flocq Require Import IEEE754.BinarySingleNaN.
From Verif Require Import Dbl Syntax Sem IEval SpecCtx Smt2.
Import ListNotations.
Local Open Scope R_scope.

Inductive value := VR (r : R) | VB (b : bool).
Definition vr (v : value) : R := match v with VR r => r | VB _ => 0 end.
Definition vb (v : value) : bool := match v with VB b => b | VR _ => false end.
Definition decide (P : Prop) : bool := if excluded_middle_informative P then true else false.

(** Values of the symbols and of the defined functions *)
Definition nenv := nat -> value.
Definition fenv := nat -> list value -> value.
Definition bindv (x : nat) (v : value) (E : nenv) : nenv := fun y => if Nat.eqb y x then v else E y.
Definition bindvs (bs : list (nat * value)) (E : nenv) : nenv := fold_right (fun p E' => bindv (fst p) (snd p) E') E bs.

Definition of_sort (so : sort) (v : value) : Prop :=
  match so, v with
  | SoBool, VB _ => True
  | SoReal, VR _ => True
  | SoInt, VR r => isint r
  | SoBinary, VR r => r = 0 \/ r = 1
  | _, _ => False
  end.
Definition bounded (bd : dbl * dbl) (v : value) : Prop := match v with VR r => between (fst bd) (snd bd) r | VB _ => True end.
Definition in_binder (b : binder) (v : value) : Prop := of_sort (snd (fst b)) v /\ bounded (snd b) v.
Definition in_sort (b : binder) (v : value) : Prop := of_sort (snd (fst b)) v.
(** for all values of the bound symbols *)
Fixpoint all_values (D : binder -> value -> Prop) (bs : list binder) (E : nenv) (k : nenv -> Prop) : Prop :=
  match bs with
  | [] => k E
  | b :: r => forall v, D b v -> all_values D r (bindv (fst (fst b)) v E) k
  end.

Definition ariR (M : interp) (o : ariop) : R -> R -> R :=
  match o with APlus => Rplus | AMinus => Rminus | ATimes => Rmult | ADiv => i_bin M BDiv end.

Section Den.
  Variables (M : interp) (FN : fenv).
  Fixpoint den (t : sterm) (E : nenv) {struct t} : value :=
    match t with
    | STrue => VB true
    | SFalse => VB false
    | SSym x => E x
    | SNum d => VR (B2R d)
    | SDec lb ub _ => VR (i_rc M lb ub)
    | SEq a b => match den a E, den b E with
                 | VR x, VR y => VB (decide (x = y))
                 | VB p, VB q => VB (Bool.eqb p q)
                 | _, _ => VB false
                 end
    | SRel o a b => VB (decide (relR o (vr (den a E)) (vr (den b E))))
    | SAnd l => VB (forallb (fun t => vb (den t E)) l)
    | SOr l => VB (existsb (fun t => vb (den t E)) l)
    | SXor l => VB (fold_left xorb (map (fun t => vb (den t E)) l) false)
    | SNot a => VB (negb (vb (den a E)))
    | SImp a b => VB (implb (vb (den a E)) (vb (den b E)))
    | SIte c a b => if vb (den c E) then den a E else den b E
    | SForall bs a => VB (decide (all_values in_binder bs E (fun E' => den a E' = VB true)))
    | SLet bs a => den a (bindvs (map (fun p => match p with (x, b) => (x, den b E) end) bs) E)
    | SNeg a => VR (- vr (den a E))
    | SAri o a l => match l with
                    | [] => den a E
                    | _ => VR (fold_left (ariR M o) (map (fun t => vr (den t E)) l) (vr (den a E)))
                    end
    | SFun o a => VR (i_un M o (vr (den a E)))
    | SFun2 o a b => VR (i_bin M o (vr (den a E)) (vr (den b E)))
    | SApp f l => FN f (map (fun t => den t E) l)
    end.

  (** Every division, logarithm, ... in the term is applied inside its domain ([FD f vs]: inside the body of
      the function [f]).  Both branches of ite count, and a body of forall counts for all values of the sorts. *)
  Variables (D : pdom) (FD : nat -> list value -> Prop).
  Fixpoint defd (t : sterm) (E : nenv) {struct t} : Prop :=
    match t with
    | STrue | SFalse | SSym _ | SNum _ | SDec _ _ _ => True
    | SEq a b | SRel _ a b | SImp a b => defd a E /\ defd b E
    | SAnd l | SOr l | SXor l => fold_right (fun a acc => defd a E /\ acc) True l
    | SNot a | SNeg a => defd a E
    | SIte c a b => defd c E /\ defd a E /\ defd b E
    | SForall bs a => all_values in_sort bs E (fun E' => defd a E')
    | SLet bs a => fold_right (fun p acc => match p with (x, b) => defd b E /\ acc end) True bs /\
                   defd a (bindvs (map (fun p => match p with (x, b) => (x, den b E) end) bs) E)
    | SAri o a l => defd a E /\ fold_right (fun b acc => (defd b E /\ (o = ADiv -> vr (den b E) <> 0)) /\ acc) True l
    | SFun o a => defd a E /\ d_un D o (vr (den a E))
    | SFun2 o a b => defd a E /\ defd b E /\ d_bin D o (vr (den a E)) (vr (den b E))
    | SApp f l => fold_right (fun a acc => defd a E /\ acc) True l /\ FD f (map (fun t => den t E) l)
    end.
End Den.

(** ** Terms covered by the theorems *)
Fixpoint has_let (t : sterm) : bool :=
  match t with
  | STrue | SFalse | SSym _ | SNum _ | SDec _ _ _ => false
  | SEq a b | SRel _ a b | SImp a b | SFun2 _ a b => has_let a || has_let b
  | SAnd l | SOr l | SXor l | SApp _ l => existsb has_let l
  | SNot a | SNeg a | SFun _ a | SForall _ a => has_let a
  | SIte c a b => has_let c || has_let a || has_let b
  | SLet _ _ => true
  | SAri _ a l => has_let a || existsb has_let l
  end.
(** The bounds of a binder are numbers and leave at least one value; a Boolean has none. *)
Definition binder_ok (b : binder) : Prop :=
  (exists v, in_binder b v) /\ is_nan (fst (snd b)) = false /\ is_nan (snd (snd b)) = false /\
  (snd (fst b) = SoBool -> is_finite (fst (snd b)) = false /\ is_finite (snd (snd b)) = false).
(** No let inside a quantifier. *)
Fixpoint plain_term (t : sterm) : Prop :=
  match t with
  | STrue | SFalse | SSym _ | SNum _ | SDec _ _ _ => True
  | SEq a b | SRel _ a b | SImp a b | SFun2 _ a b => plain_term a /\ plain_term b
  | SAnd l | SOr l | SXor l | SApp _ l => fold_right (fun a acc => plain_term a /\ acc) True l
  | SNot a | SNeg a | SFun _ a => plain_term a
  | SForall bs a => plain_term a /\ has_let a = false /\ Forall binder_ok bs
  | SIte c a b => plain_term c /\ plain_term a /\ plain_term b
  | SLet bs a => fold_right (fun p acc => match p with (x, b) => plain_term b /\ acc end) True bs /\ plain_term a
  | SAri _ a l => plain_term a /\ fold_right (fun a acc => plain_term a /\ acc) True l
  end.

(** ** Scripts

    [V k] is the value of the symbol of the k-th declaration (a definition without parameters counts: its
    symbol must have the value of its term).  A definition with parameters is a function. *)
Record sstate := mkS {
  ss_count : nat;                 (* declarations so far *)
  ss_env : nenv; ss_funs : fenv; ss_fdef : nat -> list value -> Prop;
  ss_facts : list Prop;           (* the assertions in force, last first *)
  ss_saved : list (list Prop)     (* at the pushes *)
}.
Section Script.
  Variables (M : interp) (D : pdom) (V : nat -> value).
  (** The domain of a declaration.  An Int symbol without bounds ranges over the C++ type int (see
      [C01_unbounded_int_refuted]). *)
  Definition in_domain (so : sort) (bd : option (dbl * dbl)) (v : value) : Prop :=
    match bd, so with
    | Some b, _ => between (fst b) (snd b) (match v with VR r => r | VB b => if b then 1 else 0 end)
    | None, SoInt => -2147483647 <= vr v <= 2147483647
    | None, _ => True
    end.
  (** The parameters get the values of the arguments (a missing one counts as false). *)
  Definition args_env (ps : list (nat * sort)) (vs : list value) (E : nenv) : nenv :=
    fold_left (fun E' p => bindv (fst p) (snd p) E') (combine (map fst ps) (vs ++ repeat (VB false) (length ps))) E.
  Fixpoint pushes (k : nat) (F : list Prop) (Z : list (list Prop)) : list (list Prop) :=
    match k with 0 => Z | S k' => pushes k' F (F :: Z) end%nat.
  Fixpoint pops (k : nat) (F : list Prop) (Z : list (list Prop)) : list Prop * list (list Prop) :=
    match k with 0 => (F, Z) | S k' => match Z with [] => (F, Z) | F' :: Z' => pops k' F' Z' end end%nat.
  Definition s_step (c : scmd) (s : sstate) : sstate :=
    match s with mkS k E FN FD F Z =>
      match c with
      | KDeclare x so bd => mkS (S k) (bindv x (V k) E) FN FD (in_domain so bd (V k) :: F) Z
      | KDefine f [] so t => mkS (S k) (bindv f (V k) E) FN FD ((V k = den M FN t E /\ in_domain so None (V k)) :: F) Z
      | KDefine f ps _ t => mkS k E (fun g => if Nat.eqb g f then fun vs => den M FN t (args_env ps vs E) else FN g)
                                    (fun g => if Nat.eqb g f then fun vs => defd M FN D FD t (args_env ps vs E) else FD g) F Z
      | KAssert t => mkS k E FN FD ((den M FN t E = VB true) :: F) Z
      | KPush n => mkS k E FN FD F (pushes n F Z)
      | KPop n => let (F', Z') := pops n F Z in mkS k E FN FD F' Z'
      | KCheck _ => s
      end
    end.
  Definition s_run (cs : list scmd) (s : sstate) : sstate := fold_left (fun s c => s_step c s) cs s.
  (** For every check, the facts to be satisfied. *)
  Fixpoint s_checks (cs : list scmd) (s : sstate) : list (list Prop) :=
    match cs with
    | [] => []
    | KCheck _ as c :: r => ss_facts s :: s_checks r (s_step c s)
    | c :: r => s_checks r (s_step c s)
    end.
  (** Every asserted or defining term is defined at [V]. *)
  Fixpoint s_defd (cs : list scmd) (s : sstate) : Prop :=
    match cs with
    | [] => True
    | c :: r =>
        match c with
        | KDefine _ [] _ t | KAssert t => defd M (ss_funs s) D (ss_fdef s) t (ss_env s)
        | _ => True
        end /\ s_defd r (s_step c s)
    end.
  (** Every symbol has a value of its sort. *)
  Fixpoint s_sorted (cs : list scmd) (k : nat) : Prop :=
    match cs with
    | [] => True
    | KDeclare _ so _ :: r | KDefine _ [] so _ :: r => of_sort so (V k) /\ s_sorted r (S k)
    | _ :: r => s_sorted r k
    end.
  Definition s_init : sstate := mkS 0 (fun _ => VB false) (fun _ _ => VB false) (fun _ _ => True) [] [].
End Script.
(** No let inside a quantifier or inside a function with parameters. *)
Definition plain_cmd (c : scmd) : Prop :=
  match c with
  | KDefine _ [] _ t | KAssert t => plain_term t
  | KDefine _ _ _ t => plain_term t /\ has_let t = false
  | _ => True
  end.
(** No quantifier keeps one of its variables and loses the bounds of another (see [C34_lost_bounds_refuted]). *)
Definition kept (x : list var * formula * formula) : Prop :=
  match x with (vs, dom, body) => (forall v, In v vs -> ~ In v (fvF body)) \/ incl (fvF dom) (fvF body) end.

(** The value of a variable of the solver. *)
Definition varval (v : var) (rho : env) : value :=
  match vty v with BOOLEAN => VB (decide (rho v = 1)) | _ => VR (rho v) end.
(** The symbols of the declarations, in order. *)
Definition declared_vars (ops : list Context.cop) : list var :=
  flat_map (fun o => match o with Context.ODeclare v true | Context.ODeclareDom v _ _ true => [v] | _ => [] end) ops.
(** The value of a term of the solver. *)
Definition term_value (M : interp) (t : term) (rho : env) : value :=
  match t with TmE e => VR (evalE M e rho) | TmF f => VB (decide (holds M f rho)) end.
Definition term_def (M : interp) (D : pdom) (t : term) (rho : env) : Prop :=
  match t with TmE e => defE M D e rho | TmF f => defF M D f rho end.
(** [rho] gives the k-th declared symbol the value [V k]. *)
Definition reads (V : nat -> value) (ops : list Context.cop) (rho : env) : Prop :=
  well_typed rho /\ forall i v, nth_error (declared_vars ops) i = Some v -> varval v rho = V i.

(** ** Scoping as in the standard

    A pop brings back the symbols and functions of the matching push; the declarations keep being counted.
    [names_ok]: a script uses only visible names, and does not redeclare a visible one. *)
Fixpoint uses (t : sterm) : list nat :=
  match t with
  | STrue | SFalse | SNum _ | SDec _ _ _ => []
  | SSym x => [x]
  | SEq a b | SRel _ a b | SImp a b | SFun2 _ a b => uses a ++ uses b
  | SAnd l | SOr l | SXor l | SApp _ l => flat_map uses l
  | SNot a | SNeg a | SFun _ a => uses a
  | SIte c a b => uses c ++ uses a ++ uses b
  | SForall bs a => filter (fun x => negb (existsb (Nat.eqb x) (map (fun b => fst (fst b)) bs))) (uses a)
  | SLet bs a => flat_map (fun p => match p with (_, b) => uses b end) bs ++ filter (fun x => negb (existsb (Nat.eqb x) (map fst bs))) (uses a)
  | SAri _ a l => uses a ++ flat_map uses l
  end.
Fixpoint calls (t : sterm) : list nat :=
  match t with
  | STrue | SFalse | SNum _ | SDec _ _ _ | SSym _ => []
  | SEq a b | SRel _ a b | SImp a b | SFun2 _ a b => calls a ++ calls b
  | SAnd l | SOr l | SXor l => flat_map calls l
  | SApp f l => f :: flat_map calls l
  | SNot a | SNeg a | SFun _ a | SForall _ a => calls a
  | SIte c a b => calls c ++ calls a ++ calls b
  | SLet bs a => flat_map (fun p => match p with (_, b) => calls b end) bs ++ calls a
  | SAri _ a l => calls a ++ flat_map calls l
  end.
Section Scoping.
  Variables (M : interp) (D : pdom) (V : nat -> value).
  Fixpoint z_pops (k : nat) (s : sstate) (Z : list sstate) : sstate * list sstate :=
    match k, Z with
    | S k', s' :: Z' => z_pops k' (mkS (ss_count s) (ss_env s') (ss_funs s') (ss_fdef s') (ss_facts s') []) Z'
    | _, _ => (s, Z)
    end.
  Definition z_step (c : scmd) (q : sstate * list sstate) : sstate * list sstate :=
    match c with
    | KPush k => (fst q, repeat (fst q) k ++ snd q)
    | KPop k => z_pops k (fst q) (snd q)
    | _ => (s_step M D V c (fst q), snd q)
    end.
  Fixpoint z_checks (cs : list scmd) (q : sstate * list sstate) : list (list Prop) :=
    match cs with
    | [] => []
    | KCheck _ as c :: r => ss_facts (fst q) :: z_checks r (z_step c q)
    | c :: r => z_checks r (z_step c q)
    end.
  Fixpoint z_defd (cs : list scmd) (q : sstate * list sstate) : Prop :=
    match cs with
    | [] => True
    | c :: r =>
        match c with
        | KDefine _ [] _ t | KAssert t => defd M (ss_funs (fst q)) D (ss_fdef (fst q)) t (ss_env (fst q))
        | _ => True
        end /\ z_defd r (z_step c q)
    end.
End Scoping.
(** Visible symbols and functions, and those at the pushes. *)
Definition scopes := ((list nat * list nat) * list (list nat * list nat))%type.
Fixpoint n_pops (k : nat) (q : scopes) : scopes :=
  match k, snd q with S k', w :: r => n_pops k' (w, r) | _, _ => q end.
Fixpoint names_ok (cs : list scmd) (q : scopes) : Prop :=
  let '(ns, fs, r) := q in
  match cs with
  | [] => True
  | KDeclare x _ _ :: cs' => ~ In x ns /\ names_ok cs' (x :: ns, fs, r)
  | KDefine f ps _ t :: cs' =>
      incl (uses t) (map fst ps ++ ns) /\ incl (calls t) fs /\
      match ps with
      | [] => ~ In f ns /\ names_ok cs' (f :: ns, fs, r)
      | _ => ~ In f fs /\ names_ok cs' (ns, f :: fs, r)
      end
  | KAssert t :: cs' => incl (uses t) ns /\ incl (calls t) fs /\ names_ok cs' q
  | KPush k :: cs' => names_ok cs' (ns, fs, repeat (ns, fs) k ++ r)
  | KPop k :: cs' => k <= length r /\ names_ok cs' (n_pops k q)
  | KCheck _ :: cs' => names_ok cs' q
  end%nat.

(** The variables bound by the quantifiers of a formula. *)
Fixpoint boundE (e : expr) : list var :=
  match e with
  | EConst _ | EReal _ _ _ | EVar _ | EUf _ _ => []
  | EAdd _ ts => flat_map (fun p => match p with (a, _) => boundE a end) ts
  | EMul _ ts => flat_map (fun p => match p with (a, b) => boundE a ++ boundE b end) ts
  | EUn _ a => boundE a
  | EBin _ a b => boundE a ++ boundE b
  | EIte f a b => boundF f ++ boundE a ++ boundE b
  end
with boundF (f : formula) : list var :=
  match f with
  | FTrue | FFalse | FVar _ => []
  | FRel _ a b => boundE a ++ boundE b
  | FAnd fs | FOr fs => flat_map boundF fs
  | FNot g => boundF g
  | FForall vs g => vs ++ boundF g
  end.

(** Some assignment meets the problem. *)
Definition satisfiable (M : interp) (D : pdom) (p : problem) : Prop :=
  exists rho, well_typed rho /\ (forall v d, In (v, d) (p_doms p) -> d (rho v)) /\ forall f, In f (p_asserts p) -> defF M D f rho /\ holds M f rho.
(** The only check of the script: its facts as the standard says, and the problem posed to the solver. *)
Definition facts_of (M : interp) (D : pdom) (V : nat -> value) (cs : list scmd) : Prop :=
  exists F, s_checks M D V cs s_init = [F] /\ forall P, In P F -> P.
