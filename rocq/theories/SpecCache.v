(** * Specification of the theory solver's caches (C48) *)
From Coq Require Import List Bool.
From Verif Require Import Dbl Syntax Sem Interval IEval Contr IbexConv Icp IcpPar Theory Scoped IteElim Sat Context Cache.
Import ListNotations.

(** What a solver with no history answers. *)
Definition fresh {A} (check : nat -> query -> tcache -> option (tcache * A)) (t : nat) (q : query) : option A :=
  match check t q cache0 with Some (_, r) => Some r | None => None end.
Fixpoint fresh_run {A} (check : nat -> query -> tcache -> option (tcache * A)) (t : nat) (qs : list query) : list (option A) :=
  match qs with [] => [] | q :: qs' => fresh check t q :: fresh_run check (S t) qs' end.
(** The answers of a sequence of partial computations, if all of them have one. *)
Fixpoint all_of {A} (l : list (option A)) : option (list A) :=
  match l with
  | [] => Some []
  | Some a :: l' => match all_of l' with Some r => Some (a :: r) | None => None end
  | None :: _ => None
  end.
(** Whenever a literal is checked twice, the box had the same variables in the same order and, if the literal is quantified, the
    precision was the same. *)
Definition unchanged (qs : list query) : Prop :=
  forall q q' f, In q qs -> In q' qs -> In f (q_lits q) -> In f (q_lits q') ->
    bvars (q_box q) = bvars (q_box q') /\ (is_forall f = true -> q_prec q = q_prec q').

(** The two searches (theory_solver.cc:38-50) for the [t]-th call: any bound on the steps, branching order and schedule. *)
Definition by_seq (mid : dbl -> dbl -> dbl) (k : nat -> nat) (lf : nat -> bool) : nat -> (cstat -> option cstat) -> (formula -> box -> option (etype * ival)) -> dbl -> list formula -> cstat -> option (bool * cstat) :=
  fun t pr ev p fs s => icp_seq pr ev (branch_largest mid) p (k t) fs (lf t) s.
Definition by_par (mid : dbl -> dbl -> dbl) (lf : nat -> bool) (jobs : nat) (sched : nat -> list nat) : nat -> (cstat -> option cstat) -> (formula -> box -> option (etype * ival)) -> dbl -> list formula -> cstat -> option (bool * cstat) :=
  fun t pr ev p fs s => icp_par pr ev mid p fs (lf t) jobs (sched t) s.
Definition a_search mid (srch : nat -> (cstat -> option cstat) -> (formula -> box -> option (etype * ival)) -> dbl -> list formula -> cstat -> option (bool * cstat)) : Prop :=
  (exists k lf, srch = by_seq mid k lf) \/ (exists lf jobs sched, jobs <> 0 /\ srch = by_par mid lf jobs sched).
(** The theory solver without caches (Theory.v) at a precision: contractors and evaluators are built anew in every call. *)
Section NoCache.
  Variables (esub : expr -> expr -> expr) (eneg : expr -> expr) (n : nat) (L : ibex).
  Variable fa : dbl -> list var -> formula -> box -> option (list ival).
  Variable fe : dbl -> formula -> box -> option (etype * ival).
  Variable rel : formula -> box -> option (etype * ival).
  Variables (term : list ival -> list ival -> bool) (m : nat).
  Variable srch : nat -> (cstat -> option cstat) -> (formula -> box -> option (etype * ival)) -> dbl -> list formula -> cstat -> option (bool * cstat).
  Definition orc_at (p : dbl) : oracles := ibex_oracles L esub eneg n (fun f b => fa p (bvars b) f b).
  Definition ev_at (p : dbl) (f : formula) (b : box) : option (etype * ival) := if is_forall f then fe p f b else rel f b.
  Definition fresh_T (p : dbl) (t : nat) (b : box) (fs : list formula) : option tres :=
    theory_check esub eneg n false false (fun c s => srch t (prune (orc_at p) term m c) (ev_at p) p fs s) b fs.
End NoCache.

(** The same histories with a theory solver [T] that knows nothing of earlier calls, built for the current precision. *)
Section Plain.
  Variables (fold : expr -> expr -> option dbl) (K : eops) (pico : pico_t) (T : dbl -> nat -> box -> list formula -> option tres) (mid : dbl -> dbl -> dbl).
  Fixpoint p_run (ops : list kop) (p : dbl) (x : ctx) : option (ctx * list (option box)) :=
    match ops with
    | [] => Some (x, [])
    | KPrec p' :: ops' => p_run ops' p' x
    | KOp o :: ops' => bind (cx_step fold K pico (T p) mid p o x) (fun q => bind (p_run ops' p (fst q)) (fun r => Some (fst r, snd q ++ snd r)))
    end.
End Plain.

(** A history in two phases: first options, variables and constraints are set up, at the bottom level and without a check; from then
    on no variable is declared, no option is set and no constraint has an if-then-else term. *)
Definition setup_op (o : kop) : Prop := match o with KOp OPush | KOp OPop | KOp (OCheck _) => False | _ => True end.
Definition later_op (o : kop) : Prop :=
  match o with
  | KPrec _ | KOp (ODeclare _ _) | KOp (ODeclareDom _ _ _ _) => False
  | KOp (OAssert f) => hasIteF f = false
  | _ => True
  end.
Definition two_phase (ops : list kop) : Prop := exists a b, ops = a ++ b /\ Forall setup_op a /\ Forall later_op b.
