(** C56: the prefix form of a term reads back as a term with the same meaning. *)
From Coq Require Import ZArith Reals List Bool Ascii String.
From Flocq Require Import Core.Core IEEE754.BinarySingleNaN.
From Verif Require Import Dbl Syntax Interval MathConv Sem IEval ExprAlg StdInterp Smt2 SpecSmt2 Literal SpecLiteral Prefix PrefixRead SpecPrefix PrefixReread PrefixProofs ExamplesBox ExamplesPrefix.
Import ListNotations.
Local Open Scope string_scope.

(** The text of a positive double is a decimal numeral within half a unit of the 19th digit; at most 19 digits make it exact. *)
Theorem C56_digits (c : dbl) :
  is_finite c = true -> (0 < B2R c)%R ->
  exists t, fmt19 c = show t /\ n_sign t = NoSign /\ well_formed t /\ (Rabs (value t - B2R c) <= powerRZ 10 (-18) / 2 * B2R c)%R /\
    ((powerRZ 10 19 <= B2R c)%R -> ~ integral t) /\ (short c -> value t = B2R c).
Proof. exact (text_ok c). Qed.
Print Assumptions C56_digits.

(** Whatever the reader makes of that text uses the same double. *)
Theorem C56_constant (under : mode -> string -> bool) (mid : dbl -> dbl -> dbl) (c : dbl) (e : expr) :
  mid_ok mid -> is_finite c = true -> dge c dzero = true -> read_number under mid (fmt19 c) = Some e ->
  recalls e c /\ (short c -> exists d, e = EConst d /\ is_finite d = true /\ B2R d = B2R c).
Proof. exact (fun Hm Hf Hg Hr => conj (reread_ok under mid Hm c e Hf Hg Hr) (fun Hs => reread_exact under mid Hm c e Hf Hg Hs Hr)). Qed.
Print Assumptions C56_constant.

(** An expression over writable constants and legal names is printed, its text is one term, and that term has the value of the expression,
    each decimal literal taken as the double it uses.  Without constants of more than 19 digits there are no such literals. *)
Theorem C56_expression (under : mode -> string -> bool) (mid : dbl -> dbl -> dbl) (sym : string -> nat) (name : var -> string) (known : var -> Prop)
    (uf : nat -> list R -> R) (rc : dbl -> dbl -> R) (FN : fenv) (E : nenv) (rho : env) (e : expr) :
  mid_ok mid -> (forall v, known v -> is_symbol (name v) = true) -> (forall v, known v -> E (sym (name v)) = varval v rho) -> printableE writable known e ->
  exists s t, printE name e = Some s /\ read_term under mid sym s = Some t /\ den (std uf rc) FN (settle t) E = VR (evalE (std uf rc) e rho) /\
    (printableE short (fun _ => True) e -> settle t = t).
Proof. exact (fun Hm Hn Hv => expr_round under mid Hm sym name known uf rc FN E rho Hn Hv e). Qed.
Print Assumptions C56_expression.

(** The same for formulas *)
Theorem C56_formula (under : mode -> string -> bool) (mid : dbl -> dbl -> dbl) (sym : string -> nat) (name : var -> string) (known : var -> Prop)
    (uf : nat -> list R -> R) (rc : dbl -> dbl -> R) (FN : fenv) (E : nenv) (rho : env) (f : formula) :
  mid_ok mid -> (forall v, known v -> is_symbol (name v) = true) -> (forall v, known v -> E (sym (name v)) = varval v rho) -> printableF writable known f ->
  exists s t, printF name f = Some s /\ read_term under mid sym s = Some t /\ den (std uf rc) FN (settle t) E = VB (decide (holds (std uf rc) f rho)) /\
    (printableF short (fun _ => True) f -> settle t = t).
Proof. exact (fun Hm Hn Hv => formula_round under mid Hm sym name known uf rc FN E rho Hn Hv f). Qed.
Print Assumptions C56_formula.

(** A constant that is printed and not read: an integer between 2^53 and 10^19 is written without an exponent, and the reader refuses such
    integers. *)
Theorem C56_large_integer_refuted :
  exists c : dbl, is_finite c = true /\ B2R c = 9007199254740994%R /\
    forall under mid sym name, exists s, printE name (EConst c) = Some s /\ read_term under mid sym s = None.
Proof. exact (ex_intro _ big (conj (proj1 big_R) (conj (proj2 big_R) (fun under mid sym name => ex_intro _ _ (proj2 (proj2 (big_fails under mid sym name))))))). Qed.
Print Assumptions C56_large_integer_refuted.

(** A decimal literal is printed as one double: what is read back is another number. *)
Theorem C56_decimal_refuted :
  exists (lb ub : dbl) (u : bool) (rc : dbl -> dbl -> R), rc_ok (std (fun _ _ => 0%R) rc) /\
    forall under mid sym name rho E FN, exists s t, printE name (EReal lb ub u) = Some s /\ read_term under mid sym s = Some t /\ settle t = t /\
      den (std (fun _ _ => 0%R) rc) FN t E <> VR (evalE (std (fun _ _ => 0%R) rc) (EReal lb ub u) rho).
Proof. exact (ex_intro _ done (ex_intro _ above1 (ex_intro _ false decimal_differs))). Qed.
Print Assumptions C56_decimal_refuted.

(** Names are printed as they are: a reserved word or a name with a space does not read back. *)
Theorem C56_name_refuted :
  exists (name name' : var -> string) (v : var), forall under mid sym,
    (exists s, printE name (EVar v) = Some s /\ read_term under mid sym s = None) /\ (exists s, printE name' (EVar v) = Some s /\ read_term under mid sym s = None).
Proof. exact (ex_intro _ _ (ex_intro _ _ (ex_intro _ vx (fun under mid sym => conj (ex_intro _ _ (conj (proj1 (names_fail under mid sym)) (proj1 (proj2 (names_fail under mid sym))))) (ex_intro _ _ (proj2 (proj2 (names_fail under mid sym)))))))). Qed.
Print Assumptions C56_name_refuted.

(** The hypotheses are met by "b or not (-3 + 2 x + x sin(y)^2 >= 0.1)". *)
Example C56_example :
  mid_ok ibex_mid /\ printableF writable (fun v => In v [vx; vy; vb0]) fp /\
  printF nm fp = Some "(or b (not (>= (+ (- 3) (* 2 x) (* x (^ (sin y) 2))) 0.1000000000000000056)))" /\ (forall v, In v [vx; vy; vb0] -> is_symbol (nm v) = true) /\
  (forall rho, exists E, forall v, In v [vx; vy; vb0] -> E (sy (nm v)) = varval v rho).
Proof. exact prefix_meets. Qed.
Print Assumptions C56_example.
