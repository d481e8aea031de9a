(** Property theorem about the work of a parse (C87).

    [operations] (CostSpec) is the number of stream operations a run performs: look-aheads, texts
    and spans asked for, tokens consumed, semantics applied, errors recorded.  The fuel bounds the
    depth of nested calls and the rounds of every loop. *)
From Coq Require Import String NArith.
From stdpp Require Import prelude list strings relations.
From Verif Require Import LexModel LexSpec SynSetModel TableModel CfgSpec StreamModel StreamSpec TypeModel TypeSpec ProduceModel ParseSpec CostSpec LinearFacts OutputFacts ParseEx TermEx.
Local Open Scope nat_scope.

(** ** C87: parsing takes linear work, whether the input is a sentence or not *)
(** One constant serves all sources, extracted token types and parser states: neither the depth,
    nor the rounds of a loop, nor the operations exceed it times the tokens to come. *)
Theorem C87_linear : ∀ env root md,
  accepted env root md → filled env root → plain_enums env root → productive env root →
  ∃ K, ∀ extract s f, state_ok s → K * (1 + length (to_come extract s)) ≤ f →
    ∃ o s', run extract (parse env f root (inr md)) s = ODone (inr o) s' ∧
      operations extract (parse env f root (inr md)) s ≤ K * (1 + length (to_come extract s)).
Proof. exact parse_linear_productive. Qed.
Print Assumptions C87_linear.
(** It is enough that no type contains itself by way of structs, tuples and non-empty lists. *)
Theorem C87_grounded : ∀ env root md,
  accepted env root md → filled env root → plain_enums env root → all_within env (grounded env) root →
  ∃ K, ∀ extract s f, state_ok s → K * (1 + length (to_come extract s)) ≤ f →
    ∃ o s', run extract (parse env f root (inr md)) s = ODone (inr o) s' ∧
      operations extract (parse env f root (inr md)) s ≤ K * (1 + length (to_come extract s)).
Proof. exact parse_linear. Qed.
Print Assumptions C87_grounded.
(** "(a,,(": five tokens, errors, 40 operations. *)
Example C87_ex : accepted ex_env exE (md_get ex_env exE) ∧ filled ex_env exE ∧ plain_enums ex_env exE ∧
  productive ex_env exE ∧ state_ok (start "(a,,(") ∧ length (to_come no_extract (start "(a,,(")) = 5 ∧
  operations no_extract (parse ex_env 60 exE (inr (md_get ex_env exE))) (start "(a,,(") = 40.
Proof.
  split; [apply ex_accepted|]. split; [apply ex_filled|]. split; [apply ex_plain_enums|].
  split; [apply ex_productive|]. split; [apply start_ok|]. split; by vm_compute.
Qed.

(** ** C91: what a parse puts out is linear in the input *)
(** The errors and the nodes of a result are at most as many as the operations of the run, up to
    a factor that depends on the types alone, whatever the tables. *)
Theorem C91_output : ∀ env root, filled env root → all_within env (grounded env) root →
  ∃ K, ∀ extract first follow jump f s r s', run extract (produce env first follow jump f root) s = ODone r s' →
    length (errors_of r) + match value r with Some x => length (nodes x) | None => 0 end ≤
    K * operations extract (produce env first follow jump f root) s.
Proof. exact output_paid. Qed.
Print Assumptions C91_output.
(** For accepted types: the tree has no more nodes than a constant times the tokens to come; the
    errors recorded are no more than that and the lexer's events together. *)
Theorem C91_linear : ∀ env root md,
  accepted env root md → filled env root → plain_enums env root → productive env root →
  ∃ K, ∀ extract s f, state_ok s → K * (1 + length (to_come extract s)) ≤ f →
    ∃ o s', run extract (parse env f root (inr md)) s = ODone (inr o) s' ∧
      (∀ x, o = Some x → length (nodes x) ≤ K * (1 + length (to_come extract s))) ∧
      length (p_errors s') ≤ length (p_errors s) + length (p_evs s) + K * (1 + length (to_come extract s)).
Proof. exact output_linear_productive. Qed.
Print Assumptions C91_linear.
(** "(a,,?(": nine nodes, four errors, six events. *)
Example C91_ex : accepted ex_env exE (md_get ex_env exE) ∧ filled ex_env exE ∧ plain_enums ex_env exE ∧
  productive ex_env exE ∧ all_within ex_env (grounded ex_env) exE ∧ state_ok (start "(a,,?(") ∧ length (p_evs (start "(a,,?(")) = 6 ∧
  match run no_extract (parse ex_env 60 exE (inr (md_get ex_env exE))) (start "(a,,?(") with
  | ODone (inr (Some x)) s' => length (nodes x) = 9 ∧ length (p_errors s') = 4 | _ => False end.
Proof.
  split; [apply ex_accepted|]. split; [apply ex_filled|]. split; [apply ex_plain_enums|].
  split; [apply ex_productive|]. split; [apply ProgressFacts.productive_grounded, ex_productive|]. split; [apply start_ok|].
  split; [by vm_compute|]. by vm_compute.
Qed.
