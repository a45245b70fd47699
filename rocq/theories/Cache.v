(** * The caches of the theory solver

    Models contractor_cache_ and formula_evaluator_cache_ of solver/theory_solver.{h,cc}: contractors and evaluators are built when a
    literal is first checked, and reused for that literal afterwards.  A contractor addresses the components of a box by the positions
    the variables had when it was built.  Left out: the worklist and polytope options (their contractors are not cached), and the state
    a forall contractor or evaluator keeps between its own calls (Forall.v): here it is a function of the precision it was built with. *)
From Coq Require Import ZArith List Bool Arith.
From Flocq Require Import IEEE754.BinarySingleNaN.
From Verif Require Import Dbl Syntax FormulaCons Sem Interval MathConv IEval Contr IbexConv Icp IcpPar Filter Theory Scoped IteElim Sat Context.
Import ListNotations.

(** A cached contractor: the box variables it was built for, the precision if it depends on it (theory_solver.cc:178-187), and what was built *)
Record entry := mkEntry { e_vars : list var; e_prec : option dbl; e_ctc : contractor }.
(** theory_solver.h: unordered_map<Formula, Contractor> contractor_cache_, unordered_map<Formula, FormulaEvaluator> formula_evaluator_cache_
    (keys are compared by Formula::EqualTo); the second records the precision an evaluator was built with if it depends on it *)
Record tcache := mkTcache { t_ctcs : list (formula * entry); t_evs : list (formula * option dbl) }.
Definition cache0 : tcache := mkTcache [] [].
Fixpoint lookup {A} (f : formula) (l : list (formula * A)) : option A :=
  match l with [] => None | (g, a) :: l' => if formula_eqb f g then Some a else lookup f l' end.

(** One call of CheckSat: the precision configured at the time, the box and the literals *)
Record query := mkQuery { q_prec : dbl; q_box : box; q_lits : list formula }.

Section Cached.
  Variables (esub : expr -> expr -> expr) (eneg : expr -> expr) (n : nat) (L : ibex).
  Variable fa : dbl -> list var -> formula -> box -> option (list ival).     (* a forall contractor built at a precision for some variables *)
  Variable fe : dbl -> formula -> box -> option (etype * ival).              (* a forall evaluator built at a precision *)
  Variable rel : formula -> box -> option (etype * ival).                    (* a relational evaluator *)
  Variables (term : list ival -> list ival -> bool) (m : nat).
  (** icp_->CheckSat: number of the call, pruner, evaluators, precision, literals, status *)
  Variable srch : nat -> (cstat -> option cstat) -> (formula -> box -> option (etype * ival)) -> dbl -> list formula -> cstat -> option (bool * cstat).

  (** 170-201: find or build *)
  Definition lit_entry (p : dbl) (vars : list var) (f : formula) : option entry :=
    bind (lit_ctc esub eneg n vars f) (fun c => Some (mkEntry vars (if is_forall f then Some p else None) c)).
  Definition get_entry (p : dbl) (vars : list var) (f : formula) (cc : list (formula * entry)) : option (list (formula * entry) * entry) :=
    match lookup f cc with
    | Some e => Some (cc, e)
    | None => bind (lit_entry p vars f) (fun e => Some ((f, e) :: cc, e))
    end.
  (** The loop of BuildContractor, 152-201 (see Theory.v) *)
  Fixpoint build_cached (p : dbl) (fs : list formula) (s : cstat) (acc : list entry) (cc : list (formula * entry)) : option (list (formula * entry) * (cstat * option (list entry))) :=
    match fs with
    | [] => Some (cc, (s, Some acc))
    | f :: fs' =>
        bind (filter_assertion f (cs_box s)) (fun q =>
          match q with (r, b') =>
            let s1 := cs_with_box s b' in
            match r with
            | NotFiltered =>
                let s2 := if b_eqb (cs_box s) b' then s1 else add_used s1 f in
                bind (get_entry p (bvars b') f cc) (fun x => build_cached p fs' s2 (acc ++ [snd x]) (fst x))
            | FilteredWithChange =>
                let s2 := add_used s1 f in
                if b_empty b' then Some (cc, (fold_left add_witness (fvF f) s2, None)) else build_cached p fs' s2 acc cc
            | FilteredWithoutChange => build_cached p fs' s1 acc cc
            end
          end)
    end.
  (** BuildFormulaEvaluator, 227-252 *)
  Fixpoint evaluators (p : dbl) (fs : list formula) (ec : list (formula * option dbl)) : list (formula * option dbl) * list (formula * option dbl) :=
    match fs with
    | [] => (ec, [])
    | f :: fs' =>
        let (ec1, x) := match lookup f ec with Some x => (ec, x) | None => let x := if is_forall f then Some p else None in ((f, x) :: ec, x) end in
        let (ec2, r) := evaluators p fs' ec1 in (ec2, (f, x) :: r)
    end.
  Definition run_ev (evs : list (formula * option dbl)) (f : formula) (b : box) : option (etype * ival) :=
    match lookup f evs with Some (Some p) => fe p f b | Some None => rel f b | None => None end.

  (** A cached contractor on a box: components are matched by position.  A box with another number of components than the IBEX function
      has variables is undefined behaviour (no result).  A forall contractor reads the box by variables (contractor_forall.h:202-206). *)
  Definition e_orc (now : list var) (e : entry) : oracles :=
    ibex_oracles L esub eneg n (fun f b => match e_prec e with Some p => fa p (e_vars e) f (mkBox now (bvals b)) | None => None end).
  Definition eprune (k : nat) (e : entry) (s : cstat) : option cstat :=
    let b := cs_box s in
    match e_prec e with
    | None => if Nat.eqb (length (e_vars e)) (length (bvars b)) then
                bind (prune (e_orc (bvars b) e) term k (e_ctc e) (cs_with_box s (mkBox (e_vars e) (bvals b)))) (fun s' =>
                  Some (cs_with_box s' (mkBox (bvars b) (bvals (cs_box s')))))
              else None
    | Some _ => prune (e_orc (bvars b) e) term k (e_ctc e) s
    end.
  (** ContractorFixpoint::Prune over the contractors collected (contractor_fixpoint.cc:48-68, see Contr.v) *)
  Fixpoint seq_fns (fns : list (cstat -> option cstat)) (s : cstat) : option cstat :=
    match fns with
    | [] => Some s
    | g :: fns' => bind (g s) (fun s' => if b_empty (cs_box s') then Some s' else seq_fns fns' s')
    end.
  Fixpoint fix_fns (k : nat) (fns : list (cstat -> option cstat)) (s : cstat) : option cstat :=
    match k with
    | O => None
    | S k' => bind (seq_fns fns s) (fun s' =>
        if b_empty (cs_box s') then Some s'
        else if term (bvals (cs_box s)) (bvals (cs_box s')) then Some s'
        else fix_fns k' fns s')
    end.
  Definition real_ctc (c : contractor) : bool := match c with CId => false | _ => true end.
  Definition orc0 : oracles := ibex_oracles L esub eneg n (fun _ _ => None).
  Definition fns (k : nat) (es : list entry) (ic : contractor) : list (cstat -> option cstat) :=
    map (eprune k) (filter (fun e => real_ctc (e_ctc e)) es) ++ (if real_ctc ic then [prune orc0 term k ic] else []).
  Definition prune_built (k : nat) (es : list entry) (ic : contractor) (s : cstat) : option cstat :=
    match k with
    | O => None
    | S k' => match fns k' es ic with [] => Some s | l => fix_fns k' l s end
    end.

  (** CheckSat, 254-291 *)
  Definition tc_check (t : nat) (q : query) (c : tcache) : option (tcache * tres) :=
    let b := q_box q in let p := q_prec q in
    bind (match q_lits q with
          | [] => Some (t_ctcs c, (cs_new b None, Some (prune orc0 term m (mk_integer b))))
          | fs => bind (build_cached p fs (cs_new b None) [] (t_ctcs c)) (fun x =>
                    Some (fst x, (fst (snd x), match snd (snd x) with Some es => Some (prune_built m es (mk_integer (cs_box (fst (snd x))))) | None => None end)))
          end) (fun x =>
      match x with
      | (cc, (s, None)) => Some (mkTcache cc (t_evs c), TUnsat (explanation (cs_wit s) (cs_used s)))
      | (cc, (s, Some pr)) =>
          let (ec, evs) := evaluators p (q_lits q) (t_evs c) in
          bind (srch t pr (run_ev evs) p (q_lits q) s) (fun r =>
            let s' := snd r in
            Some (mkTcache cc ec, if b_empty (cs_box s') then TUnsat (explanation (cs_wit s') (cs_used s')) else TSat (cs_box s')))
      end).
  (** The life of a theory solver; [t] counts its calls *)
  Fixpoint tc_run (t : nat) (qs : list query) (c : tcache) : option (tcache * list tres) :=
    match qs with
    | [] => Some (c, [])
    | q :: qs' => bind (tc_check t q c) (fun x => bind (tc_run (S t) qs' (fst x)) (fun y => Some (fst y, snd x :: snd y)))
    end.

  (** ** The context of Context.v with this theory solver in it *)
  Variables (fold : expr -> expr -> option dbl) (K : eops) (pico : pico_t) (mid : dbl -> dbl -> dbl).
  (** context_impl.cc:146-205, see core_loop *)
  Fixpoint k_loop (p : dbl) (fuel : nat) (b : box) (s : satst) (nx t : nat) (c : tcache) : option (option box * satst * nat * nat * tcache) :=
    match fuel with
    | 0 => None
    | S fuel' =>
        match pico t (ss_popped s) (sv_vec (ss_clauses s)) (ss_max s) with
        | PUnknown => None
        | PUnsat => Some (None, s, nx, S t, c)
        | PSat a =>
            let (bm, tm) := sat_model s a in
            let b1 := set_bools bm b in
            match tm with
            | [] => Some (Some b1, s, nx, S t, c)
            | _ =>
                bind (theory_lits s tm) (fun fs =>
                bind (tc_check t (mkQuery p b1 fs) c) (fun r =>
                  match snd r with
                  | TSat m => Some (Some m, s, nx, S t, fst r)
                  | TUnsat E => bind (sat_learn fold E nx s) (fun q => k_loop p fuel' b1 (fst q) (snd q) (S t) (fst r))
                  end))
            end
        end
    end.
  (** context_impl.cc:127-220, see check_core and cx_check *)
  Definition k_core (p : dbl) (fuel : nat) (x : ctx) (c : tcache) : option (option box * ctx * tcache) :=
    bind (cx_box x) (fun b =>
    if b_empty b then Some (None, x, c) else
    let st := sv_vec (cx_stack x) in
    if existsb is_false st then Some (None, x, c) else
    match st with
    | [] => Some (Some b, x, c)
    | _ =>
        if match st with [f] => is_true f | _ => false end then Some (Some b, x, c)
        else bind (k_loop p fuel b (cx_sat x) (cx_next x) (cx_calls x) c) (fun r =>
               match r with (ob, s, nx, t, c1) =>
                 Some (ob, {| cx_boxes := cx_boxes x; cx_stack := cx_stack x; cx_sat := s; cx_next := nx;
                              cx_mvars := cx_mvars x; cx_model := cx_model x; cx_calls := t |}, c1) end)
    end).
  Definition k_check (p : dbl) (fuel : nat) (x : ctx) (c : tcache) : option (option box * ctx * tcache) :=
    bind (k_core p fuel x c) (fun r =>
      match r with
      | (Some b, x1, c1) => bind (tighten mid p b) (fun b1 => let m := extract_model (cx_mvars x1) b1 in Some (Some m, cx_with_model m x1, c1))
      | (None, x1, c1) => Some (None, cx_with_model (b_set_empty (cx_model x1)) x1, c1)
      end).
  (** Histories of calls in which the precision may be set (Context::mutable_config, Context::SetOption :precision, context_impl.cc:366-377) *)
  Inductive kop := KOp (o : cop) | KPrec (p : dbl).
  Definition k_step (p : dbl) (o : cop) (x : ctx) (c : tcache) : option (ctx * tcache * list (option box)) :=
    match o with
    | OCheck fuel => bind (k_check p fuel x c) (fun r => Some (snd (fst r), snd r, [fst (fst r)]))
    | _ => bind (cx_step fold K pico (fun _ _ _ => None) mid p o x) (fun q => Some (fst q, c, snd q))   (* asks no theory solver *)
    end.
  Fixpoint k_run (ops : list kop) (p : dbl) (x : ctx) (c : tcache) : option (ctx * tcache * list (option box)) :=
    match ops with
    | [] => Some (x, c, [])
    | KPrec p' :: ops' => k_run ops' p' x c
    | KOp o :: ops' => bind (k_step p o x c) (fun q => bind (k_run ops' p (fst (fst q)) (snd (fst q))) (fun r => Some (fst r, snd q ++ snd r)))
    end.
End Cached.
