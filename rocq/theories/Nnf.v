(** * Negation normal form and naive CNF

    Models dreal/util/nnfizer.cc:24-179 and dreal/util/naive_cnfizer.cc:33-116. *)
From Coq Require Import ZArith List Bool.
From Verif Require Import Dbl Syntax FormulaCons.
Import ListNotations.

Section Nnf.
  Variable fold : expr -> expr -> option dbl.

  (** Nnfizer::Visit*, nnfizer.cc:29-179.  [pol] is the polarity, [push] is
      [push_negation_into_relationals]. *)
  Fixpoint nnf (push : bool) (f : formula) (pol : bool) {struct f} : formula :=
    match f with
    | FFalse => if pol then FFalse else FTrue                         (* 34-39 *)
    | FTrue => if pol then FTrue else FFalse                          (* 40-45 *)
    | FVar _ => if pol then f else mk_not f                           (* 46-51 *)
    | FRel op e1 e2 =>                                                (* 52-135 *)
        if pol then f
        else if push then
               match op with
               | REq => mk_rel fold RNeq e1 e2
               | RNeq => mk_rel fold REq e1 e2
               | RGt => mk_rel fold RLeq e1 e2
               | RGeq => mk_rel fold RLt e1 e2
               | RLt => mk_rel fold RGeq e1 e2
               | RLeq => mk_rel fold RGt e1 e2
               end
             else mk_not f
    | FAnd fs =>                                                      (* 136-149 *)
        let ops := fset (map (fun g => nnf push g pol) fs) in
        if pol then mk_conj ops else mk_disj ops
    | FOr fs =>                                                       (* 150-163 *)
        let ops := fset (map (fun g => nnf push g pol) fs) in
        if pol then mk_disj ops else mk_conj ops
    | FNot g => nnf push g (negb pol)                                 (* 164-170 *)
    | FForall _ _ => if pol then f else mk_not f                      (* 171-179 *)
    end.

  (** Nnfizer::Convert, nnfizer.cc:24-27 *)
  Definition nnf_convert (f : formula) (push : bool) : formula := nnf push f true.

  (** The accumulate lambda of NaiveCnfizer::VisitDisjunction, naive_cnfizer.cc:80-110 *)
  Definition or_step (cnf1 cnf2 : formula) : formula :=
    let clauses :=
      match cnf1, cnf2 with
      | FAnd c1s, FAnd c2s => flat_map (fun c1 => map (fun c2 => mk_or c1 c2) c2s) c1s
      | FAnd c1s, _ => map (fun c1 => mk_or c1 cnf2) c1s
      | _, FAnd c2s => map (fun c2 => mk_or cnf1 c2) c2s
      | _, _ => [mk_or cnf1 cnf2]
      end in
    mk_conj (fset clauses).

  (** NaiveCnfizer::Visit*, naive_cnfizer.cc:38-116.  VisitForall calls Convert on the body, so the
      recursion is bounded by the nesting depth of quantifiers, [n]; the [O] case is proved
      unreachable (NnfProofs.naive_cnf_deep: bodies of all quantifiers of the result are in CNF). *)
  Fixpoint ncnf (n : nat) : formula -> formula :=
    fix visit (f : formula) : formula :=
      match f with
      | FFalse | FTrue | FVar _ => f                                  (* 41-43 *)
      | FRel REq l r => mk_and (mk_rel fold RGeq l r) (mk_rel fold RLeq l r)   (* 44-48 *)
      | FRel RNeq l r => mk_or (mk_rel fold RGt l r) (mk_rel fold RLt l r)     (* 49-53 *)
      | FRel _ _ _ => f                                               (* 54-61 *)
      | FForall vs g =>                                               (* 62-67 *)
          match n with
          | O => f
          | S m => mk_forall vs (ncnf m (nnf true g true))
          end
      | FAnd fs => mk_conj (fset (map visit fs))                      (* 69-74 *)
      | FOr fs => fold_left or_step (fset (map visit fs)) FFalse      (* 76-111 *)
      | FNot _ => f                                                   (* 113-116 *)
      end.

  Fixpoint qdepth (f : formula) : nat :=
    match f with
    | FAnd fs => fold_right (fun g n => Nat.max (qdepth g) n) 0 fs
    | FOr fs => fold_right (fun g n => Nat.max (qdepth g) n) 0 fs
    | FNot g => qdepth g
    | FForall _ g => S (qdepth g)
    | _ => 0
    end.

  (** NaiveCnfizer::Convert, naive_cnfizer.cc:33-36 *)
  Definition naive_cnf (f : formula) : formula := ncnf (qdepth f) (nnf true f true).
End Nnf.
