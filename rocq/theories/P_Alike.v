(** C113: texts that are not declared as literals do not matter.

    [literals t], [env_literals env] (LayoutSpec): the literals of a type and of the declarations, with their token types.
    [alike lit a b]: tokens of the same type, whose texts are equal or both not in [lit].
    [same_tree], [same_error] (LayoutSpec): equal up to positions, which are at the same tokens, and quoted texts (C50). *)
From Coq Require Import String NArith.
From stdpp Require Import prelude list strings.
From Verif Require Import LexModel LexSpec SynSetModel TableModel StreamModel StreamSpec TypeModel ProduceModel ParseSpec ParseEx
  LayoutSpec LayoutFacts AlikeFacts AlikeEx.
Local Open Scope nat_scope.

(** The FIRST, FOLLOW and jump tables give the same answer for tokens alike. *)
Theorem C113_tables : ∀ env t md, accepted env t md →
  let lit x := x ∈ literals t ++ env_literals env in
  ∀ p a b, alike lit a b →
    ts_contains (tb_get (md_first md) p) (Some a) = ts_contains (tb_get (md_first md) p) (Some b) ∧
    ts_contains (tb_get (md_follow md) p) (Some a) = ts_contains (tb_get (md_follow md) p) (Some b) ∧
    jump_look_up (md_jump md) p (Some a) = jump_look_up (md_jump md) p (Some b).
Proof. exact tables_texts. Qed.
Print Assumptions C113_tables.

(** Two sources with tokens alike, in whatever layout: if one run ends, so does the other, with the same tree,
    the same syntax errors (also what is expected) at the same tokens and the same marks. *)
Theorem C113_parse : ∀ extract env f t md src1 evs1 src2 evs2 o1 s1', accepted env t md →
  raw_ok (String.length src1) evs1 → raw_ok (String.length src2) evs2 →
  let toks evs := filter (λ t, extract (t_ty t) = false) (raw_tokens evs) in
  Forall2 (alike (λ x, x ∈ literals t ++ env_literals env)) (word src1 (toks evs1)) (word src2 (toks evs2)) →
  run extract (parse env f t (inr md)) (pst_new src1 evs1) = ODone (inr o1) s1' →
  ∃ o2 s2', run extract (parse env f t (inr md)) (pst_new src2 evs2) = ODone (inr o2) s2' ∧
    option_Forall2 (same_tree src1 (toks evs1) src2 (toks evs2)) o1 o2 ∧
    Forall2 (same_error src1 (toks evs1) src2 (toks evs2)) (syntax_errors s1') (syntax_errors s2') ∧
    map c_sem (p_tokens s1') = map c_sem (p_tokens s2').
Proof. exact fresh_texts. Qed.
Print Assumptions C113_parse.

(** And so for later calls on the same parsers. *)
Theorem C113_again : ∀ extract env f t md s1 s2 o1 s1', accepted env t md →
  state_ok s1 → state_ok s2 → alike_words (λ x, x ∈ literals t ++ env_literals env) extract s1 s2 →
  Forall2 (across extract same_error s1 s2) (syntax_errors s1) (syntax_errors s2) →
  run extract (parse env f t (inr md)) s1 = ODone (inr o1) s1' →
  ∃ o2 s2', run extract (parse env f t (inr md)) s2 = ODone (inr o2) s2' ∧
    option_Forall2 (across extract same_tree s1 s2) o1 o2 ∧
    alike_words (λ x, x ∈ literals t ++ env_literals env) extract s1' s2' ∧
    Forall2 (across extract same_error s1 s2) (syntax_errors s1') (syntax_errors s2').
Proof. exact parse_texts. Qed.
Print Assumptions C113_again.

(** "(a,+b)" and " ( z,?;y ) ": other names, another symbol that is no literal, another layout.
    The symbol is reported in either source. *)
Example C113_ex : accepted ex_env exE (md_get ex_env exE) ∧ state_ok (start "(a,+b)") ∧ state_ok (start " ( z,?;y ) ") ∧
  literals exE ++ env_literals ex_env = [(1, "("); (1, ","); (1, ")")]%string ∧
  alike_words ex_known no_extract (start "(a,+b)") (start " ( z,?;y ) ") ∧
  match ex_parse ex_env exE "(a,+b)", ex_parse ex_env exE " ( z,?;y ) " with
  | ODone (inr (Some x)) s1, ODone (inr (Some x')) s2 =>
      map e_span (p_errors s1) = [Span 3 4] ∧ map e_span (syntax_errors s2) = [Span 6 7] ∧ x ≠ x' ∧
      tree_span x = Span 0 6 ∧ tree_span x' = Span 1 10 ∧ map c_sem (p_tokens s1) = map c_sem (p_tokens s2)
  | _, _ => False
  end.
Proof. exact alike_ex. Qed.
(** Declared texts are told apart from others, in their token type. *)
Example C113_not_alike : ¬ alike ex_known (1, ","%string) (1, "+"%string) ∧ alike ex_known (1, ";"%string) (1, "+"%string) ∧
  alike ex_known (0, ","%string) (0, "+"%string).
Proof. exact alike_not. Qed.
