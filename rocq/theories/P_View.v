(** Queries on slices of slices and marks through them: C100.

    [query], [views], [views_apply], [marks] are in ViewModel; [chosen], [by_span], [meets] in ViewSpec;
    [cells_ok] in LexSpec. *)
From Coq Require Import String NArith.
From stdpp Require Import prelude list.
From Verif Require Import LexModel LexSpec ViewModel ViewSpec ViewFacts.
Local Open Scope nat_scope.

(** ** C100: what a chain of queries gives and what is written through it *)
(** The slice after a chain of queries is the part of the vector with just the tokens chosen. *)
Theorem C100_view : ∀ len qs l, cells_ok len l →
  match views qs l with
  | Some r => ∃ a b, l = a ++ r ++ b ∧ ∀ i, chosen qs l i ↔ length a ≤ i ∧ i < length a + length r
  | None => ∀ i, ¬ chosen qs l i
  end.
Proof. exact views_spec. Qed.
Print Assumptions C100_view.
(** Queries by spans: the tokens that meet all of them, in whatever order they are asked. *)
Theorem C100_spans : ∀ len qs l, cells_ok len l → Forall by_span qs →
  views qs l = Some (filter (λ c, Forall (meets c) qs) l).
Proof. exact views_spans. Qed.
Print Assumptions C100_spans.
Theorem C100_order : ∀ len qs qs' l, cells_ok len l → Forall by_span qs → qs ≡ₚ qs' → views qs l = views qs' l.
Proof. exact views_order. Qed.
Print Assumptions C100_order.
(** [apply_semantic] at the end of a chain marks the tokens chosen and changes nothing else. *)
Theorem C100_write : ∀ len qs sem l, cells_ok len l → length (views_apply qs sem l) = length l ∧
  ∀ i c, l !! i = Some c →
    (chosen qs l i → views_apply qs sem l !! i = Some (Cell (c_tok c) (N.lor (c_sem c) sem))) ∧
    (¬ chosen qs l i → views_apply qs sem l !! i = Some c).
Proof. exact views_apply_spec. Qed.
Print Assumptions C100_write.
(** [Cell::types] after any number of marks through chains of queries by spans. *)
Theorem C100_types : ∀ dbg n len ops l i c, n ≤ 32 → cells_ok len l →
  Forall (λ op : list query * N, Forall by_span op.1) ops → l !! i = Some c → t_ty (c_tok c) < n →
  ∃ c' s, marks ops l !! i = Some c' ∧ c_tok c' = c_tok c ∧ cell_types dbg n c' = Some s ∧
    ∀ y, y < n → set_contains dbg n s y = Some true ↔ y = t_ty (c_tok c) ∨ set_contains dbg n (c_sem c) y = Some true ∨
      ∃ op, op ∈ ops ∧ Forall (meets c) op.1 ∧ set_contains dbg n op.2 y = Some true.
Proof. exact marks_types. Qed.
Print Assumptions C100_types.

Definition ex_cells : list cell := map cell_of [Token (Span 0 2) 1; Token (Span 2 4) 2; Token (Span 5 6) 2; Token (Span 6 9) 1; Token (Span 9 10) 2].
(** Touching 1..10, of these inside 1..10, of these those of type 2 up to the one that ends at 6: the run stops at the edge of the slice. *)
Example C100_ex : cells_ok 10 ex_cells ∧
  views [QOverlap (Span 1 10); QInside (Span 1 10); QEnds (λ c, t_ty (c_tok c) =? 2) 6] ex_cells =
    Some (map cell_of [Token (Span 2 4) 2; Token (Span 5 6) 2]) ∧
  views [QInside (Span 5 10); QEnds (λ c, t_ty (c_tok c) =? 2) 6] ex_cells = Some (map cell_of [Token (Span 5 6) 2]) ∧
  views [QInside (Span 5 10); QBegins (λ c, t_ty (c_tok c) =? 2) 2] ex_cells = None ∧
  map c_sem (views_apply [QOverlap (Span 1 10); QInside (Span 1 10); QEnds (λ c, t_ty (c_tok c) =? 2) 6] 4 ex_cells) = [0; 4; 4; 0; 0]%N ∧
  option_map (cell_types true 5) (marks [([QInside (Span 1 9)], 8%N); ([QOverlap (Span 0 10); QInside (Span 6 9)], 16%N)] ex_cells !! 3) =
    Some (Some 26%N).
Proof. split; [cbn; lia|]. split_and!; by vm_compute. Qed.
