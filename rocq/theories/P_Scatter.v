(** Property theorem about items scattered over a source (C102).

    [scattered env t src l its gs] (ScatterSpec): the tokens [l] are sentences [its] of [t] with gaps [gs] of tokens that begin
    none.  [parses], [lang] (ParseSpec), [regular] (CompleteSpec), [cover] (LoopSpec), [no_punct_end] (NextSpec). *)
From Coq Require Import String NArith.
From stdpp Require Import prelude list strings relations.
From Verif Require Import LexModel LexSpec SynSetModel TableModel CfgSpec StreamModel StreamSpec TypeModel TypeSpec ProduceModel ParseSpec CompleteSpec
  LoopSpec NextSpec ScatterSpec ScatterFacts SyntaxEx ParseEx NextEx ScatterEx.
Local Open Scope nat_scope.

(** ** C102: a loop finds every item *)
(** [tp::Loop] goes through the whole source, returns the trees of exactly the items, in order, and reports each gap, from
    its first to its last token, by one error; unrecognised text apart there are no others. *)
Theorem C102_loop : ∀ extract env t md s its gs,
  accepted env (TLoop t) md → regular env (TLoop t) → productive env (TLoop t) → no_punct_end env (TLoop t) t →
  state_ok s → scattered env t (p_src s) (to_come extract s) its gs →
  ∃ f0 sp xs es bad s', (∀ f, f0 ≤ f → run extract (parse env f (TLoop t) (inr md)) s = ODone (inr (Some (TrList sp xs))) s') ∧
    to_come extract s' = [] ∧ Forall2 (λ i x, ∃ p, parses env (p_src s) p t i x) its xs ∧
    Forall2 (λ g e, cover g = Some (e_span e) ∧ e_kind e = UnexpectedTokens) gs es ∧
    p_invalid s' = p_invalid s ++ bad ∧ p_errors s' = p_errors s ++ map (λ sp, PErr sp UnexpectedCharacters) bad ++ es.
Proof. exact loop_finds. Qed.
Print Assumptions C102_loop.
(** A loop of statements on "(a b,))c,". *)
Example C102_ex : accepted [] (TLoop stT) (md_get [] (TLoop stT)) ∧ regular [] (TLoop stT) ∧ productive [] (TLoop stT) ∧
  no_punct_end [] (TLoop stT) stT ∧ state_ok (start sc_src) ∧ scattered [] stT sc_src (to_come no_extract (start sc_src)) sc_items sc_gaps.
Proof.
  split; [exact sc_accepted|]. split; [exact sc_regular|]. split; [exact sc_productive|]. split; [exact sc_no_punct|].
  split; [apply start_ok|exact sc_scattered].
Qed.
Example C102_run_ex : match ex_parse [] (TLoop stT) sc_src with
  | ODone (inr (Some (TrList _ xs))) s' => map tree_span xs = [Span 1 5; Span 7 9] ∧ map e_span (p_errors s') = [Span 0 1; Span 5 7]
  | _ => False
  end.
Proof. by vm_compute. Qed.
