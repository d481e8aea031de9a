(** Containers of [tp::Plus] and [tp::Star] (C93).

    [plus_into c], [star_into c] (IterModel): [Plus<V, T>::produce], [Star<V, T>::produce] for a container [c] given
    by its [FromIterator].  [orderly c build] (IterSpec): it asks for all elements and stops at the first
    [None], and [build l] is what it makes of the elements [l].  [produce] of [TPlus t], [TStar t] is what all
    other theorems are about. *)
From Coq Require Import String.
From stdpp Require Import prelude list strings.
From Verif Require Import LexModel SynSetModel TableModel StreamModel StreamSpec TypeModel ProduceModel ParseSpec IterModel IterSpec IterFacts ParseEx.
Local Open Scope nat_scope.

(** ** C93: the container does not matter *)
(** The same elements, span and errors, and the parser is left in the same state. *)
Theorem C93_plus : ∀ V (c : container V) build extract env first follow jump, orderly c build →
  ∀ f t s r s', run extract (produce env first follow jump (S f) (TPlus t)) s = ODone r s' →
  ∀ m, f + 2 ≤ m → run extract (plus_into c m (produce env first follow jump f t) (first (key (TPlus t)))) s = ODone (in_container build r) s'.
Proof. exact @plus_same. Qed.
Print Assumptions C93_plus.
Theorem C93_star : ∀ V (c : container V) build extract env first follow jump, orderly c build →
  ∀ f t s r s', run extract (produce env first follow jump (S f) (TStar t)) s = ODone r s' →
  ∀ m, f + 2 ≤ m → run extract (star_into c (build []) m (produce env first follow jump f t) (first (key (TPlus t)))) s = ODone (in_container build r) s'.
Proof. exact @star_same. Qed.
Print Assumptions C93_star.
(** "aaa(": the list, and a container that counts. *)
Example C93_ex : orderly vec_container (λ l, l) ∧ orderly count_container length ∧
  match run no_extract (produce_md [] (md_get [] (TPlus tId)) 60 (TPlus tId)) (start "aaa(") with
  | ODone r _ => in_container length r = RSucc (Span 0 3, 3) | _ => False end.
Proof. split; [exact vec_orderly|]. split; [exact count_orderly|by vm_compute]. Qed.

(** Not so for others.  A container that stops early leaves elements in the input: [Plus<V, a>] on "aa". *)
Theorem C93_early_refuted : ∃ V (c : container V) md s f r s' v s'', accepted [] (TPlus tId) md ∧ state_ok s ∧
  run no_extract (produce_md [] md (S f) (TPlus tId)) s = ODone r s' ∧ to_come no_extract s' = [] ∧
  run no_extract (plus_into c (f + 2) (produce_md [] md f tId) (tb_get (md_first md) (key (TPlus tId)))) s = ODone v s'' ∧
  to_come no_extract s'' ≠ [].
Proof. exact early_stops. Qed.
Print Assumptions C93_early_refuted.
(** The iterator goes on after [None]: a container that asks again gets elements from behind one that
    failed.  [Plus<V, ("(", a)>] on "(a((a": [Vec] gets one element, this container two. *)
Theorem C93_unfused_refuted : ∃ (c : container (list tree)) md s f sp l es s' sp2 l2 es2 s'', accepted [] (TPlus (TTuple [tL; tId])) md ∧ state_ok s ∧
  run no_extract (produce_md [] md (S f) (TPlus (TTuple [tL; tId]))) s = ODone (RRec (TrList sp l) es) s' ∧ length l = 1 ∧
  run no_extract (plus_into c (f + 2) (produce_md [] md f (TTuple [tL; tId])) (tb_get (md_first md) (key (TPlus (TTuple [tL; tId]))))) s =
    ODone (RRec (sp2, l2) es2) s'' ∧ length l2 = 2.
Proof. exact unfused. Qed.
Print Assumptions C93_unfused_refuted.
