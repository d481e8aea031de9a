(** Example for layout independence. *)
From Coq Require Import String NArith.
From stdpp Require Import prelude list strings.
From Verif Require Import LexModel LexSpec SynSetModel TableModel StreamModel StreamSpec TypeModel ProduceModel ParseSpec ParseEx LayoutSpec.
Local Open Scope nat_scope.

Lemma layout_ex : state_ok (start "(a,(b)") ∧ state_ok (start " ( a,?(b  ) ") ∧
  same_words no_extract (start "(a,(b)") (start " ( a,?(b  ) ") ∧
  match ex_run ex_env exE "(a,(b)", ex_run ex_env exE " ( a,?(b  ) " with
  | ODone (RRec x es) s1, ODone (RRec x' es') s2 =>
      map e_span es = [Span 6 6] ∧ map e_span es' = [Span 12 12] ∧ x ≠ x' ∧
      tree_span x = Span 0 6 ∧ tree_span x' = Span 1 12 ∧ map c_sem (p_tokens s1) = [0; 3; 2; 2; 3; 2]%N
  | _, _ => False
  end.
Proof.
  split; [apply start_ok|]. split; [apply start_ok|]. split; [by vm_compute|].
  vm_compute. split_and!; done.
Qed.
