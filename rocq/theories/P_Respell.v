(** C114: how literals are spelled does not matter.

    [respell π t], [respell_env π env] (LayoutSpec): the same types and declarations with every literal [x] of token type [y]
    spelled [π y x].
    [distinct_on π lits]: different literals of a token type stay different.
    [respelled π lits a b]: tokens of the same type: a literal and its new spelling, or texts that are no literals.
    [respelled_set π lits s s']: [s] has a token iff [s'] has the corresponding one.
    [same_tree], [like_error] (LayoutSpec): equal up to positions, which are at the same tokens, quoted texts (C50),
    and the spelling of what is expected. *)
From Coq Require Import String NArith.
From stdpp Require Import prelude list strings.
From Verif Require Import LexModel LexSpec SynSetModel TableModel StreamModel StreamSpec TypeModel TypeSpec ProduceModel ParseSpec ParseEx
  LayoutSpec LayoutFacts RespellFacts RespellEx.
Local Open Scope nat_scope.

(** The grammar is accepted in both spellings or in none. *)
Theorem C114_verdict : ∀ π env t, env_declared env → ty_declared (length env) t →
  distinct_on π (literals t ++ env_literals env) →
  (∃ md, accepted env t md) ↔ ∃ md', accepted (respell_env π env) (respell π t) md'.
Proof. exact respell_accepted. Qed.
Print Assumptions C114_verdict.

(** The tables answer the same for corresponding tokens, at every type written with these literals. *)
Theorem C114_tables : ∀ π env t md md', distinct_on π (literals t ++ env_literals env) →
  accepted env t md → accepted (respell_env π env) (respell π t) md' →
  let lits := literals t ++ env_literals env in
  ∀ u, literals u ⊆ lits →
    respelled_set π lits (tb_get (md_first md) (key u)) (tb_get (md_first md') (key (respell π u))) ∧
    respelled_set π lits (tb_get (md_follow md) (key u)) (tb_get (md_follow md') (key (respell π u))) ∧
    ∀ o o', option_Forall2 (respelled π lits) o o' →
      jump_look_up (md_jump md) (key u) o = jump_look_up (md_jump md') (key (respell π u)) o'.
Proof. exact respell_tables. Qed.
Print Assumptions C114_tables.

(** Sources with corresponding tokens, in whatever layout: if one run ends, so does the other, with the same tree,
    corresponding syntax errors at the same tokens and the same marks. *)
Theorem C114_parse : ∀ π extract env f t md md' src1 evs1 src2 evs2 o1 s1', distinct_on π (literals t ++ env_literals env) →
  accepted env t md → accepted (respell_env π env) (respell π t) md' →
  raw_ok (String.length src1) evs1 → raw_ok (String.length src2) evs2 →
  let toks evs := filter (λ t, extract (t_ty t) = false) (raw_tokens evs) in
  let lits := literals t ++ env_literals env in
  Forall2 (respelled π lits) (word src1 (toks evs1)) (word src2 (toks evs2)) →
  run extract (parse env f t (inr md)) (pst_new src1 evs1) = ODone (inr o1) s1' →
  ∃ o2 s2', run extract (parse (respell_env π env) f (respell π t) (inr md')) (pst_new src2 evs2) = ODone (inr o2) s2' ∧
    option_Forall2 (same_tree src1 (toks evs1) src2 (toks evs2)) o1 o2 ∧
    Forall2 (like_error src1 (toks evs1) src2 (toks evs2) (respelled_set π lits)) (syntax_errors s1') (syntax_errors s2') ∧
    map c_sem (p_tokens s1') = map c_sem (p_tokens s2').
Proof. exact respell_fresh. Qed.
Print Assumptions C114_parse.

(** And so for later calls on the same parsers: the errors added correspond. *)
Theorem C114_again : ∀ π extract env f t md md' s1 s2 o1 s1', distinct_on π (literals t ++ env_literals env) →
  accepted env t md → accepted (respell_env π env) (respell π t) md' →
  let lits := literals t ++ env_literals env in
  state_ok s1 → state_ok s2 → respelled_words π lits extract s1 s2 →
  run extract (parse env f t (inr md)) s1 = ODone (inr o1) s1' →
  ∃ o2 s2', run extract (parse (respell_env π env) f (respell π t) (inr md')) s2 = ODone (inr o2) s2' ∧
    option_Forall2 (across extract same_tree s1 s2) o1 o2 ∧
    respelled_words π lits extract s1' s2' ∧
    ∃ e1 e2, syntax_errors s1' = syntax_errors s1 ++ e1 ∧ syntax_errors s2' = syntax_errors s2 ++ e2 ∧
      Forall2 (across extract like_error s1 s2 (respelled_set π lits)) e1 e2.
Proof. exact respell_parse. Qed.
Print Assumptions C114_again.

(** Parentheses the other way round and ";" for ",": "(a,+b)" and " ) z;?,y ( ", where "," is no literal any more. *)
Example C114_ex : env_declared ex_env ∧ ty_declared (length ex_env) exE ∧ distinct_on ex_pi ex_lits ∧
  ex_lits = [(1, "("); (1, ","); (1, ")")]%string ∧
  accepted ex_env exE (md_get ex_env exE) ∧ accepted (respell_env ex_pi ex_env) (respell ex_pi exE) (md_get (respell_env ex_pi ex_env) exE) ∧
  state_ok (start "(a,+b)") ∧ state_ok (start " ) z;?,y ( ") ∧
  respelled_words ex_pi ex_lits no_extract (start "(a,+b)") (start " ) z;?,y ( ") ∧
  match ex_parse ex_env exE "(a,+b)", ex_parse (respell_env ex_pi ex_env) exE " ) z;?,y ( " with
  | ODone (inr (Some x)) s1, ODone (inr (Some x')) s2 =>
      map e_span (p_errors s1) = [Span 3 4] ∧ map e_span (syntax_errors s2) = [Span 6 7] ∧ x ≠ x' ∧
      tree_span x = Span 0 6 ∧ tree_span x' = Span 1 10 ∧ map c_sem (p_tokens s1) = map c_sem (p_tokens s2)
  | _, _ => False
  end.
Proof. exact respell_ex. Qed.
(** The hypothesis matters: with ")" for "," too the grammar is rejected. *)
Example C114_mix : accepted ex_env exE (md_get ex_env exE) ∧ ¬ distinct_on ex_mix ex_lits ∧
  match ex_parse ex_env exE "(a,b)" with ODone (inr (Some _)) s => p_errors s = [] | _ => False end ∧
  md_of (respell_env ex_mix ex_env) (respell ex_mix exE) = None.
Proof. exact respell_mix. Qed.
