(** Property theorems about the layout of the source (C94).

    [word src l] (ParseSpec): types and texts of the tokens [l].  [same_words s1 s2], [same_tree], [same_error],
    [same_result] (LayoutSpec): equal up to positions, which are at the same tokens.
    [across extract R s1 s2]: [R] for the sources and tokens of the two parsers. *)
From Coq Require Import String.
From stdpp Require Import prelude list strings.
From Verif Require Import LexModel LexSpec SynSetModel TableModel StreamModel StreamSpec TypeModel ProduceModel ParseSpec ParseEx
  LayoutSpec LayoutFacts LayoutEx.
Local Open Scope nat_scope.

(** ** C94: the layout does not matter *)
(** With whatever tables, from any two states with the same tokens in them (types and texts):
    if one run ends, so does the other, with the same kind of result: the same tree and errors except for
    the positions, which are at the same tokens, and with the same tokens marked. *)
Theorem C94_produce : ∀ extract env first follow jump f t s1 s2 r1 s1',
  state_ok s1 → state_ok s2 → same_words extract s1 s2 →
  run extract (produce env first follow jump f t) s1 = ODone r1 s1' →
  ∃ r2 s2', run extract (produce env first follow jump f t) s2 = ODone r2 s2' ∧
    across extract same_result s1 s2 r1 r2 ∧ same_words extract s1' s2'.
Proof. exact produce_layout. Qed.
Print Assumptions C94_produce.
(** Two texts: white space, comments (extracted tokens) and unrecognised text make no difference
    to the tree, the syntax errors and the marks. *)
Theorem C94_parse : ∀ extract env f t md src1 evs1 src2 evs2 o1 s1',
  raw_ok (String.length src1) evs1 → raw_ok (String.length src2) evs2 →
  let toks evs := filter (λ t, extract (t_ty t) = false) (raw_tokens evs) in
  word src1 (toks evs1) = word src2 (toks evs2) →
  run extract (parse env f t (inr md)) (pst_new src1 evs1) = ODone (inr o1) s1' →
  ∃ o2 s2', run extract (parse env f t (inr md)) (pst_new src2 evs2) = ODone (inr o2) s2' ∧
    option_Forall2 (same_tree src1 (toks evs1) src2 (toks evs2)) o1 o2 ∧
    Forall2 (same_error src1 (toks evs1) src2 (toks evs2)) (syntax_errors s1') (syntax_errors s2') ∧
    map c_sem (p_tokens s1') = map c_sem (p_tokens s2').
Proof. exact fresh_layout. Qed.
Print Assumptions C94_parse.
(** And so for later calls on the same parsers. *)
Theorem C94_again : ∀ extract env f t md s1 s2 o1 s1',
  state_ok s1 → state_ok s2 → same_words extract s1 s2 →
  Forall2 (across extract same_error s1 s2) (syntax_errors s1) (syntax_errors s2) →
  run extract (parse env f t (inr md)) s1 = ODone (inr o1) s1' →
  ∃ o2 s2', run extract (parse env f t (inr md)) s2 = ODone (inr o2) s2' ∧
    option_Forall2 (across extract same_tree s1 s2) o1 o2 ∧ same_words extract s1' s2' ∧
    Forall2 (across extract same_error s1 s2) (syntax_errors s1') (syntax_errors s2').
Proof. exact parse_layout. Qed.
Print Assumptions C94_again.
(** "(a,(b)" with and without white space and with an unrecognised character: the missing
    parenthesis is reported at the end of either source. *)
Example C94_ex : state_ok (start "(a,(b)") ∧ state_ok (start " ( a,?(b  ) ") ∧
  same_words no_extract (start "(a,(b)") (start " ( a,?(b  ) ") ∧
  match ex_run ex_env exE "(a,(b)", ex_run ex_env exE " ( a,?(b  ) " with
  | ODone (RRec x es) s1, ODone (RRec x' es') s2 =>
      map e_span es = [Span 6 6] ∧ map e_span es' = [Span 12 12] ∧ x ≠ x' ∧
      tree_span x = Span 0 6 ∧ tree_span x' = Span 1 12 ∧ map c_sem (p_tokens s1) = [0; 3; 2; 2; 3; 2]%N
  | _, _ => False
  end.
Proof. exact layout_ex. Qed.
