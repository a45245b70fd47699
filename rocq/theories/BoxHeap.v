(** * Box objects with shared index tables (util/box.cc)

    A Box holds three shared_ptrs (variables_, var_to_idx_, idx_to_var_) and its own interval vector
    (box.h:130-137).  Copying a Box copies the pointers; Box::Add clones the tables when
    [variables_] is not unique.  Here the tables live in a heap and a Box object is a pointer plus
    its values.  The three pointers are always copied and cloned together (box.cc:76-80), so they are
    one pointer.  Moved-from boxes are not modelled. *)
From Coq Require Import ZArith List Bool.
From Verif Require Import Dbl Syntax Interval.
Import ListNotations.

Record tables := mkT { t_vars : list var; t_v2i : list (var * nat); t_i2v : list (nat * var) }.
Definition obj : Type := nat * list ival.
Record heap := mkH { h_tabs : list tables; h_objs : list (option obj) }.

Fixpoint assocv (v : var) (l : list (var * nat)) : option nat :=
  match l with [] => None | (w, i) :: l' => if var_eqb v w then Some i else assocv v l' end.
Fixpoint associ (i : nat) (l : list (nat * var)) : option var :=
  match l with [] => None | (j, w) :: l' => if Nat.eqb i j then Some w else associ i l' end.
(** unordered_map::emplace: keeps an existing entry. *)
Definition emplacev (v : var) (i : nat) (l : list (var * nat)) :=
  match assocv v l with Some _ => l | None => (v, i) :: l end.
Definition emplacei (i : nat) (v : var) (l : list (nat * var)) :=
  match associ i l with Some _ => l | None => (i, v) :: l end.

Definition tab (h : heap) (p : nat) : tables := nth p (h_tabs h) (mkT [] [] []).
Definition objn (h : heap) (k : nat) : option obj := nth k (h_objs h) None.
(** shared_ptr::unique() *)
Definition refs (h : heap) (p : nat) : nat :=
  length (filter (fun o => match o with Some (q, _) => Nat.eqb p q | None => false end) (h_objs h)).
Definition unique (h : heap) (p : nat) : bool := Nat.eqb (refs h p) 1.

Definition setobj (h : heap) (k : nat) (o : option obj) : heap := mkH (h_tabs h) (upd_nth k o (h_objs h)).

(** Box::Add(v), box.cc:66-97 *)
Definition h_add (h : heap) (k : nat) (v : var) : heap :=
  match objn h k with
  | None => h
  | Some (p, vals) =>
      let t := tab h p in
      let '(p', tabs) := if unique h p then (p, h_tabs h)
                         else (length (h_tabs h), h_tabs h ++ [t]) in
      let n := length (t_vars t) in
      let t' := mkT (t_vars t ++ [v]) (emplacev v n (t_v2i t)) (emplacei n v (t_i2v t)) in
      let vals1 := iv_resize (S n) vals in
      let vals2 := match default_dom (vty v) with Some d => upd_nth n d vals1 | None => vals1 end in
      mkH (upd_nth p' t' tabs) (upd_nth k (Some (p', vals2)) (h_objs h))
  end.
(** operator[](Variable), box.cc:125-127, 132-134: an unknown variable is inserted with index 0 into
    the (possibly shared) table. *)
Definition h_index (h : heap) (k : nat) (v : var) : heap * nat :=
  match objn h k with
  | None => (h, 0)
  | Some (p, _) =>
      let t := tab h p in
      match assocv v (t_v2i t) with
      | Some i => (h, i)
      | None => (mkH (upd_nth p (mkT (t_vars t) ((v, 0) :: t_v2i t) (t_i2v t)) (h_tabs h)) (h_objs h), 0)
      end
  end.
Definition h_setvals (h : heap) (k : nat) (g : list ival -> list ival) : heap :=
  match objn h k with None => h | Some (p, vals) => setobj h k (Some (p, g vals)) end.

Inductive bop :=
| ONew                                   (* Box b; *)
| OCopy (src : nat)                      (* Box b{src}; *)
| OAssign (dst src : nat)                (* dst = src; *)
| ODestroy (k : nat)
| OAdd (k : nat) (v : var)
| OAddDom (k : nat) (v : var) (l u : dbl)
| OSet (k i : nat) (x : ival)            (* b[i] = x *)
| OSetVar (k : nat) (v : var) (x : ival) (* b[v] = x *)
| OGetVar (k : nat) (v : var)            (* b[v] (const) *)
| OSetEmpty (k : nat).

Definition h_step (h : heap) (op : bop) : heap :=
  match op with
  | ONew => mkH (h_tabs h ++ [mkT [] [] []]) (h_objs h ++ [Some (length (h_tabs h), [i_all])])
  | OCopy s => mkH (h_tabs h) (h_objs h ++ [objn h s])
  | OAssign d s => match objn h d, objn h s with Some _, Some o => setobj h d (Some o) | _, _ => h end
  | ODestroy k => setobj h k None
  | OAdd k v => h_add h k v
  | OAddDom k v l u =>
      let h1 := h_add h k v in
      let (h2, i) := h_index h1 k v in
      h_setvals h2 k (upd_nth i (mk_ival l u))
  | OSet k i x => h_setvals h k (upd_nth i x)
  | OSetVar k v x => let (h1, i) := h_index h k v in h_setvals h1 k (upd_nth i x)
  | OGetVar k v => fst (h_index h k v)
  | OSetEmpty k => h_setvals h k (map (fun _ => IEmpty))
  end.
Definition h_run (ops : list bop) : heap := fold_left h_step ops (mkH [] []).

(** What a Box object reports. *)
Definition obs_vars (h : heap) (k : nat) : option (list var) := option_map (fun o => t_vars (tab h (fst o))) (objn h k).
Definition obs_vals (h : heap) (k : nat) : option (list ival) := option_map snd (objn h k).
Definition obs_index (h : heap) (k : nat) (v : var) : option (option nat) :=
  option_map (fun o => assocv v (t_v2i (tab h (fst o)))) (objn h k).
Definition obs_has (h : heap) (k : nat) (v : var) : option bool :=
  option_map (fun o => match assocv v (t_v2i (tab h (fst o))) with Some _ => true | None => false end) (objn h k).
Definition obs_variable (h : heap) (k i : nat) : option (option var) :=
  option_map (fun o => associ i (t_i2v (tab h (fst o)))) (objn h k).

(** ** Specification: boxes as plain values, one per object, nothing shared. *)
Definition vstore := list (option box).
Definition vget (s : vstore) (k : nat) : option box := nth k s None.
Definition vmod (s : vstore) (k : nat) (g : box -> box) : vstore :=
  match vget s k with None => s | Some b => upd_nth k (Some (g b)) s end.
Definition v_step (s : vstore) (op : bop) : vstore :=
  match op with
  | ONew => s ++ [Some box0]
  | OCopy k => s ++ [vget s k]
  | OAssign d k => match vget s d, vget s k with Some _, Some b => upd_nth d (Some b) s | _, _ => s end
  | ODestroy k => upd_nth k None s
  | OAdd k v => vmod s k (fun b => b_add b v)
  | OAddDom k v l u => vmod s k (fun b => b_add_dom b v l u)
  | OSet k i x => vmod s k (fun b => b_set b i x)
  | OSetVar k v x => vmod s k (fun b => b_setv b v x)
  | OGetVar k v => s
  | OSetEmpty k => vmod s k b_set_empty
  end.
Definition v_run (ops : list bop) : vstore := fold_left v_step ops [].

(** The operations respect the documented preconditions: a variable is added at most once to a box
    (box.cc:67-70) and indexing uses variables of the box. *)
Definition op_pre (s : vstore) (op : bop) : Prop :=
  match op with
  | OAdd k v | OAddDom k v _ _ => forall b, vget s k = Some b -> ~ In v (bvars b)
  | OSetVar k v _ | OGetVar k v => forall b, vget s k = Some b -> In v (bvars b)
  | _ => True
  end.
Fixpoint ops_pre (s : vstore) (ops : list bop) : Prop :=
  match ops with [] => True | op :: ops' => op_pre s op /\ ops_pre (v_step s op) ops' end.
