(** The example grammars of README.md and tests/book_ex_recur.rs: C86.

    [rd_items] ([E -> T ( + T )*], ...) and [rr_items] ([E -> T E'], ...) are the items as written,
    [written] says that the macros accept them and that the generated code implements [env];
    [expression] describes sums of products without reference to the parser (ReadmeSpec). *)
From Coq Require Import String NArith.
From stdpp Require Import prelude list strings.
From Verif Require Import LexModel LexSpec TableModel StreamModel StreamSpec TypeModel ProduceModel SynMacroModel ParseSpec CompleteSpec SourceSpec ParseEx ReadmeSpec ReadmeFacts.
Local Open Scope nat_scope.

(** ** C86: the example parsers parse exactly the arithmetic expressions *)
(** The items are accepted by the macros and the grammars by [Metadata::build]. *)
Theorem C86_written : written true rd_names rd_items rd_env ∧ written true rd_names rr_items rr_env ∧
  (∃ md, accepted rd_env (TNamed 0) md) ∧ (∃ md, accepted rr_env (TNamed 0) md).
Proof. exact (conj rd_written (conj rr_written (conj (ex_intro _ _ rd_accepted) (ex_intro _ _ rr_accepted)))). Qed.
Print Assumptions C86_written.
(** Whatever the text and the state of the parser: all tokens to come are parsed into a tree
    without errors exactly if they are an expression. *)
Theorem C86_lists : ∀ extract env md s,
  written true rd_names rd_items env → accepted env (TNamed 0) md → state_ok s →
  parsed_whole extract env md (TNamed 0) s ↔ expression (word (p_src s) (to_come extract s)).
Proof. exact rd_decides. Qed.
Print Assumptions C86_lists.
Theorem C86_recursive : ∀ extract env md s,
  written true rd_names rr_items env → accepted env (TNamed 0) md → state_ok s →
  parsed_whole extract env md (TNamed 0) s ↔ expression (word (p_src s) (to_come extract s)).
Proof. exact rr_decides. Qed.
Print Assumptions C86_recursive.
(** Both always end. *)
Theorem C86_ends : ∀ extract env items md s,
  items = rd_items ∨ items = rr_items → written true rd_names items env → accepted env (TNamed 0) md → state_ok s →
  ∃ f0 o s', ∀ f, f0 ≤ f → run extract (parse env f (TNamed 0) (inr md)) s = ODone (inr o) s'.
Proof. exact rd_ends. Qed.
Print Assumptions C86_ends.

(** "(a+b)*(c+d)", the source of the README. *)
Example C86_ex : let s := pst_new "(a+b)*(c+d)" rd_raws in state_ok s ∧
  expression (word (p_src s) (to_come no_extract s)) ∧ parsed_whole no_extract rd_env (md_get rd_env (TNamed 0)) (TNamed 0) s ∧
  parsed_whole no_extract rr_env (md_get rr_env (TNamed 0)) (TNamed 0) s.
Proof.
  intros s. assert (Hok : state_ok s) by (vm_compute; repeat split; lia).
  assert (Hx : expression (word (p_src s) (to_come no_extract s))) by exact rd_ex_expression.
  split; [done|]. split; [done|]. split.
  - by apply (rd_decides _ _ _ _ rd_written rd_accepted Hok).
  - by apply (rr_decides _ _ _ _ rr_written rr_accepted Hok).
Qed.
(** "a+": not an expression. *)
Example C86_ex_not : let s := pst_new "a+" [RTok 0 (Span 0 1); RTok 1 (Span 1 2)] in state_ok s ∧
  ¬ expression (word (p_src s) (to_come no_extract s)).
Proof.
  intros s. assert (Hok : state_ok s) by (vm_compute; repeat split; lia). split; [done|].
  intros Hx. apply (rd_decides _ _ _ _ rd_written rd_accepted Hok) in Hx.
  revert Hx. apply (CompleteEx.not_whole _ _ _ _ _ 60); by vm_compute.
Qed.
