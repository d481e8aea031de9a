(** [tp::Loop]: C44.

    [loops], [cover], [advances] are in LoopSpec; [accepted], [plain_enums], [within] in
    ParseSpec; [starts] in CfgSpec. *)
From Coq Require Import String NArith.
From stdpp Require Import prelude list strings relations.
From Verif Require Import LexModel LexSpec SynSetModel TableModel CfgSpec StreamModel StreamSpec TypeModel TypeSpec ProduceModel ParseSpec LoopSpec LoopFacts ParseEx TermEx CompleteEx LoopEx.
Local Open Scope nat_scope.

(** ** C44: a loop goes to the end of the input *)
(** Whatever the tables say: no panic; what was found and reported is explained by [loops]. *)
Theorem C44_trace : ∀ extract env first follow jump f t s r s',
  state_ok s → run extract (produce env first follow jump (S f) (TLoop t)) s = ODone r s' →
  ∃ sp xs, value r = Some (TrList sp xs) ∧
    loops extract (λ x, ts_contains (first (key (TLoop t))) (Some x) = true)
      (λ s r s', run extract (produce env first follow jump f t) s = ODone r s') s xs (errors_of r) s'.
Proof. exact loop_run. Qed.
Print Assumptions C44_trace.
(** The input is used up or the last error is [NoAdvance]. *)
Theorem C44_over : ∀ extract env first follow jump f t s r s',
  state_ok s → run extract (produce env first follow jump f (TLoop t)) s = ODone r s' →
  to_come extract s' = [] ∨ ∃ e es, errors_of r = es ++ [e] ∧ e_kind e = NoAdvance.
Proof. exact loop_over. Qed.
Print Assumptions C44_over.
(** For accepted grammars the input is used up and no [NoAdvance] is reported. *)
Theorem C44_accepted : ∀ extract env root md regs f t s r s',
  accepted env root md → register_root env (prod_of root) = Some regs →
  plain_enums env root → within env root (TLoop t) → state_ok s →
  run extract (produce_md env md (S f) (TLoop t)) s = ODone r s' →
  to_come extract s' = [] ∧ advances (errors_of r) ∧ ∃ sp xs, value r = Some (TrList sp xs) ∧
    loops extract (starts regs (key t)) (λ s r s', run extract (produce_md env md f t) s = ODone r s') s xs (errors_of r) s'.
Proof. exact loop_accepted. Qed.
Print Assumptions C44_accepted.
Theorem C44_advances : ∀ extract env root md f t s r s',
  accepted env root md → plain_enums env root → within env root t → state_ok s →
  run extract (produce_md env md f t) s = ODone r s' → advances (errors_of r).
Proof. exact produce_advances. Qed.
Print Assumptions C44_advances.
Theorem C44_parse : ∀ extract env root md f s o s',
  accepted env root md → plain_enums env root → state_ok s →
  run extract (parse env f root (inr md)) s = ODone o s' → ∃ es, p_errors s' = p_errors s ++ es ∧ advances es.
Proof. exact parse_advances. Qed.
Print Assumptions C44_parse.
(** [Loop<E>] on [", ) a ) b ("]: two skips, two items, a failed item. *)
Example C44_ex : accepted ex_env exL (md_get ex_env exL) ∧ plain_enums ex_env exL ∧ state_ok (start ",)a)b(") ∧
  match run no_extract (produce_md ex_env (md_get ex_env exL) 30 exL) (start ",)a)b(") with
  | ODone (RRec (TrList _ [TrVar 0 _; TrVar 0 _])
      [PErr (Span 0 2) UnexpectedTokens; PErr (Span 3 4) UnexpectedTokens; PErr (Span 6 6) (Expecting _)]) s' =>
      to_come no_extract s' = []
  | _ => False
  end.
Proof.
  split; [exact exL_accepted|]. split; [apply exL_regular|]. split; [apply start_ok|]. by vm_compute.
Qed.
(** With an enum that may be empty, an accepted grammar does stop short:
    [Loop<(E, "(")>] with [enum E { A(Option<a>) }] on "(". *)
Theorem C44_enum_refuted : ∃ env root md f s r s',
  accepted env root md ∧ filled env root ∧ state_ok s ∧ (∃ t, root = TLoop t) ∧
  run no_extract (produce_md env md f root) s = ODone r s' ∧
  ¬ advances (errors_of r) ∧ to_come no_extract s' ≠ [].
Proof. exact loop_stuck. Qed.
Print Assumptions C44_enum_refuted.
