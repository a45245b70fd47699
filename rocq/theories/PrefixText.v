(** Proofs for SpecPrefix: the text *)
From Coq Require Import ZArith Reals Lra Lia List Bool Ascii String ClassicalDescription.
From Flocq Require Import Core.Core IEEE754.BinarySingleNaN.
From Verif Require Import Dbl DblProofs Interval Syntax MathConv Sem IEval ExprAlg StdInterp PowProofs SpecLiteral Literal LiteralProofs LiteralTop Smt2 SpecSmt2 Prefix PrefixNum PrefixRead SpecPrefix PrefixReread.
Import ListNotations.
Local Open Scope string_scope.

(** ** Words, terms and tails *)
Lemma app_as (a b c : string) : (a ++ b) ++ c = a ++ (b ++ c).
Proof. induction a as [|x a IH]; cbn; [reflexivity|rewrite IH; reflexivity]. Qed.
Lemma app_nil (a : string) : a ++ "" = a.
Proof. induction a as [|x a IH]; cbn; [reflexivity|rewrite IH; reflexivity]. Qed.
Definition delim (s : string) : Prop := match s with EmptyString => True | String c _ => c = "("%char \/ c = ")"%char \/ c = " "%char end.
Definition word (w : string) : Prop := w <> "" /\ all_chars sym_char w = true.
(** [s] is the text of [x]. *)
Definition is_text (s : string) (x : sexp) : Prop := exists ts, (forall rest, delim rest -> lex (s ++ rest) "" = option_map (app ts) (lex rest "")) /\
  forall r cur st, build (ts ++ r) cur st = build r (x :: cur) st.
(** [s] is the text of [xs], with a space in front of each. *)
Definition is_tail (s : string) (xs : list sexp) : Prop := (forall rest, delim rest -> delim (s ++ rest)) /\
  exists ts, (forall rest, delim rest -> lex (s ++ rest) "" = option_map (app ts) (lex rest "")) /\ forall r cur st, build (ts ++ r) cur st = build r (rev xs ++ cur)%list st.
Lemma sym_char_plain c : sym_char c = true -> Ascii.eqb c "(" = false /\ Ascii.eqb c ")" = false /\ is_space c = false.
Proof. destruct c as [[|] [|] [|] [|] [|] [|] [|] [|]]; intros H; try discriminate H; repeat split; reflexivity. Qed.
Lemma lex_delim rest w : delim rest -> lex rest w = option_map (flush w) (lex rest "").
Proof.
  destruct rest as [|c r]; [reflexivity|]. intros H. cbn [lex]. destruct H as [-> |[-> | ->]]; cbn [Ascii.eqb Bool.eqb is_space nat_of_ascii].
  - destruct (lex r ""); reflexivity.
  - destruct (lex r ""); reflexivity.
  - change (is_space " ") with true. cbv iota. destruct (lex r ""); reflexivity.
Qed.
Lemma lex_word v : forall w rest, all_chars sym_char v = true -> delim rest -> lex (v ++ rest) w = option_map (flush (w ++ v)) (lex rest "").
Proof.
  induction v as [|c v IH]; intros w rest A D; cbn [append].
  - rewrite app_nil. apply lex_delim. exact D.
  - cbn [all_chars] in A. apply andb_true_iff in A. destruct A as [A1 A2]. destruct (sym_char_plain c A1) as (E1 & E2 & E3). cbn [lex]. rewrite E1, E2, E3, A1. rewrite IH by assumption. rewrite app_as. reflexivity.
Qed.
Lemma word_text w : word w -> is_text w (SA w).
Proof.
  intros [N A]. exists [TWord w]. split; [|reflexivity]. intros rest D. rewrite lex_word by assumption. cbn [append]. destruct w; [congruence|]. destruct (lex rest ""); reflexivity.
Qed.
Lemma tail_nil : is_tail "" [].
Proof. split; [intros r H; exact H|]. exists []. split; [intros rest _; cbn; destruct (lex rest ""); reflexivity|reflexivity]. Qed.
Lemma tail_cons s x r xs : is_text s x -> is_tail r xs -> is_tail (" " ++ s ++ r) (x :: xs).
Proof.
  intros (t1 & A1 & B1) (D2 & t2 & A2 & B2). split; [intros rest _; cbn; auto|]. exists (t1 ++ t2)%list. split.
  - intros rest D. rewrite !app_as. cbn [append lex]. change (is_space " ") with true. cbn [Ascii.eqb Bool.eqb]. cbv iota. rewrite A1 by (apply D2; exact D). rewrite A2 by exact D. destruct (lex rest ""); [cbn [option_map flush]; rewrite app_assoc; reflexivity|reflexivity].
  - intros q cur st. rewrite <- app_assoc, B1, B2. cbn [rev]. rewrite <- app_assoc. reflexivity.
Qed.
Lemma tail_app s xs r ys : is_tail s xs -> is_tail r ys -> is_tail (s ++ r) (xs ++ ys)%list.
Proof.
  intros (D1 & t1 & A1 & B1) (D2 & t2 & A2 & B2). split; [intros rest D; rewrite app_as; auto|]. exists (t1 ++ t2)%list. split.
  - intros rest D. rewrite app_as, A1 by auto. rewrite A2 by exact D. destruct (lex rest ""); [cbn [option_map]; rewrite app_assoc; reflexivity|reflexivity].
  - intros q cur st. rewrite <- app_assoc, B1, B2. rewrite rev_app_distr, <- app_assoc. reflexivity.
Qed.
Lemma list_text w r xs : word w -> is_tail r xs -> is_text ("(" ++ w ++ r ++ ")") (SL (SA w :: xs)).
Proof.
  intros [N A] (D2 & t2 & A2 & B2). exists (TOpen :: TWord w :: t2 ++ [TClose])%list. split.
  - intros rest D. rewrite !app_as. cbn [append lex]. cbn [Ascii.eqb Bool.eqb]. cbv iota. rewrite lex_word by (auto; apply D2; cbn; auto). cbn [append].
    rewrite A2 by (cbn; auto). cbn [append lex Ascii.eqb Bool.eqb]. cbv iota. destruct w; [congruence|]. destruct (lex rest ""); [|reflexivity]. cbn [option_map flush app]. rewrite <- app_assoc. reflexivity.
  - intros q cur st. cbn [app build]. rewrite <- app_assoc, B2. cbn [app build]. rewrite rev_app_distr, rev_involutive. reflexivity.
Qed.
Lemma text_read under mid sym s x t : is_text s x -> rd under mid sym x = Some t -> read_term under mid sym s = Some t.
Proof.
  intros (ts & A & B) R0. unfold read_term. specialize (A "" I). rewrite app_nil in A. rewrite A. cbn [lex flush option_map]. rewrite B. cbn. exact R0.
Qed.
Lemma all_chars_app p a b : all_chars p (a ++ b) = all_chars p a && all_chars p b.
Proof. induction a as [|c a IH]; cbn; [reflexivity|rewrite IH, andb_assoc; reflexivity]. Qed.
Lemma digits_chars ds : all_chars sym_char (show_digits ds) = true.
Proof. induction ds as [|d ds IH]; [reflexivity|]. cbn [show_digits fold_right all_chars]. fold (show_digits ds). rewrite IH. destruct d; reflexivity. Qed.
Lemma number_word t : well_formed t -> word (show t).
Proof.
  intros W. split.
  - intros E. pose proof (is_number_show t W) as N. rewrite E in N. discriminate N.
  - unfold show. rewrite !all_chars_app, digits_chars. assert (Sg : forall s, all_chars sym_char (show_sign s) = true) by (intros []; reflexivity). rewrite Sg. cbn [andb].
    apply andb_true_iff. split; [destruct (n_frac t); [rewrite all_chars_app, digits_chars|]; reflexivity|].
    destruct (n_exp t) as [[[u s] ds]|]; [|reflexivity]. rewrite !all_chars_app, digits_chars, Sg. destruct u; reflexivity.
Qed.
