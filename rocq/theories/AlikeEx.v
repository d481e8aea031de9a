(** Example for texts that are no literal. *)
From Coq Require Import String NArith.
From stdpp Require Import prelude list strings.
From Verif Require Import LexModel LexSpec SynSetModel TableModel StreamModel StreamSpec TypeModel ProduceModel ParseSpec ParseEx LayoutSpec.
Local Open Scope nat_scope.

Definition ex_known (x : tok) : Prop := x ∈ literals exE ++ env_literals ex_env.
#[global] Instance alike_dec a b : Decision (alike ex_known a b).
Proof. unfold alike, ex_known. apply _. Defined.
Lemma alike_ex : accepted ex_env exE (md_get ex_env exE) ∧ state_ok (start "(a,+b)") ∧ state_ok (start " ( z,?;y ) ") ∧
  literals exE ++ env_literals ex_env = [(1, "("); (1, ","); (1, ")")]%string ∧
  alike_words ex_known no_extract (start "(a,+b)") (start " ( z,?;y ) ") ∧
  match ex_parse ex_env exE "(a,+b)", ex_parse ex_env exE " ( z,?;y ) " with
  | ODone (inr (Some x)) s1, ODone (inr (Some x')) s2 =>
      map e_span (p_errors s1) = [Span 3 4] ∧ map e_span (syntax_errors s2) = [Span 6 7] ∧ x ≠ x' ∧
      tree_span x = Span 0 6 ∧ tree_span x' = Span 1 10 ∧ map c_sem (p_tokens s1) = map c_sem (p_tokens s2)
  | _, _ => False
  end.
Proof.
  split; [apply ex_accepted|]. split; [apply start_ok|]. split; [apply start_ok|]. split; [done|]. split.
  - split; [|by vm_compute]. apply (bool_decide_unpack _). by vm_compute.
  - vm_compute. split_and!; done.
Qed.
(** A declared literal is told apart from another text: "," and "+" *)
Lemma alike_not : ¬ alike ex_known (1, ","%string) (1, "+"%string) ∧ alike ex_known (1, ";"%string) (1, "+"%string) ∧
  alike ex_known (0, ","%string) (0, "+"%string).
Proof. split_and!; apply (bool_decide_unpack _); by vm_compute. Qed.
