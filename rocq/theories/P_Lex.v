(** Properties of the lexing layer (C01-C06, C11-C14, C63). *)
From Coq Require Import String Ascii NArith ZArith.
From stdpp Require Import prelude list.
From Verif Require Import LexModel LexSpec LexFacts WideFacts VecFacts.
Local Open Scope nat_scope.

(** ** C01 *)
Theorem C01_set_algebra : ∀ dbg n e, 0 < n → n ≤ 32 → set_expr_ok n e →
  ∃ s, set_eval dbg n e = Some s ∧
    (∀ id, id < n → set_contains dbg n s id = Some true ∧ set_member e id ∨
                    set_contains dbg n s id = Some false ∧ ¬ set_member e id) ∧
    (set_is_empty s = true ↔ ∀ id, id < n → ¬ set_member e id).
Proof. exact set_algebra. Qed.
Print Assumptions C01_set_algebra.

Theorem C01_set_inclusion : ∀ dbg n e1 e2 s1 s2, 0 < n → n ≤ 32 →
  set_expr_ok n e1 → set_expr_ok n e2 →
  set_eval dbg n e1 = Some s1 → set_eval dbg n e2 = Some s2 →
  (set_contains_all s1 s2 = true ↔ ∀ id, id < n → set_member e2 id → set_member e1 id) ∧
  (s1 = s2 ↔ ∀ id, id < n → set_member e1 id ↔ set_member e2 id).
Proof. exact set_inclusion. Qed.
Print Assumptions C01_set_inclusion.

Example C01_example :
  set_expr_ok 32 (SRemove (SUnion (STokenSet [3; 31]) (SInsert SNew 7)) 3) ∧
  set_eval true 32 (SRemove (SUnion (STokenSet [3; 31]) (SInsert SNew 7)) 3) = Some 2147483776%N.
Proof. split; [|reflexivity]. cbn. split_and!; try lia. intros i Hi. set_unfold. lia. Qed.

(** ** C02 *)
Theorem C02_set_iter : ∀ dbg n s k, 0 < n → n ≤ 32 →
  ∃ ms, iter_calls dbg n s k iter_START = Some (take k (map Some ms ++ replicate k None)) ∧
    ms = filter (λ id, set_contains dbg n s id = Some true) (seq 0 n).
Proof. exact iter_calls_spec. Qed.
Print Assumptions C02_set_iter.

Example C02_example : iter_calls true 7 77%N 6 iter_START =
  Some [Some 0; Some 2; Some 3; Some 6; None; None].
Proof. reflexivity. Qed.

(** ** C03: above 32 variants the claim fails for every accepted size: with
    overflow checks [to_bit] of variant 32 panics, without them it aliases variant 0. *)
Theorem C03_wide_refuted : ∀ n, 32 < n → n ≤ 128 →
  to_bit true n 32 = None ∧
  ∃ s, set_insert false n set_new 0 = Some s ∧ set_contains false n s 32 = Some true.
Proof. exact wide_alias. Qed.
Print Assumptions C03_wide_refuted.

(** Variant 31 is sign extended into all the higher bits. *)
Theorem C03_sign_refuted : ∃ s, set_insert true 64 set_new 31 = Some s ∧
  s = 18446744071562067968%N ∧ set_union s s ≠ N.shiftl 1 31.
Proof. exact wide_sign. Qed.
Print Assumptions C03_sign_refuted.

(** What is true above 32 variants.  A program that only uses the first 32 types gets the
    right sets, in both builds. *)
Theorem C03_low_partial : ∀ dbg n e, 32 < n → n ≤ 128 → set_expr_ok 32 e →
  ∃ s, set_eval dbg n e = Some s ∧
    (∀ id, id < 32 → set_contains dbg n s id = Some true ∧ set_member e id ∨
                     set_contains dbg n s id = Some false ∧ ¬ set_member e id) ∧
    (set_is_empty s = true ↔ ∀ id, id < 32 → ¬ set_member e id).
Proof. exact wide_low. Qed.
Print Assumptions C03_low_partial.

(** With overflow checks, whatever does not panic is right. *)
Theorem C03_checked_partial : ∀ n e s, 32 < n → n ≤ 128 → set_eval true n e = Some s →
  ∀ id r, set_contains true n s id = Some r → r = true ↔ set_member e id.
Proof. exact wide_checked. Qed.
Print Assumptions C03_checked_partial.

(** Without overflow checks nothing panics, and the sets are exactly those in which types
    with equal remainders modulo 32 are one type. *)
Theorem C03_release_partial : ∀ n e, 32 < n → n ≤ 128 →
  ∃ s, set_eval false n e = Some s ∧
    ∀ id, set_contains false n s id = Some true ∧ folded e (id mod 32) ∨
          set_contains false n s id = Some false ∧ ¬ folded e (id mod 32).
Proof. exact wide_release. Qed.
Print Assumptions C03_release_partial.

Definition C03_prog : set_expr := SRemove (SInsert (STokenSet [3; 31]) 30) 3.
Example C03_low_ex : set_expr_ok 32 C03_prog ∧
  map (λ s, map (set_contains true 40 s) [3; 30; 31]) (option_list (set_eval true 40 C03_prog)) =
  [[Some false; Some true; Some true]].
Proof. split; [|reflexivity]. repeat split; try lia. intros i. set_unfold. lia. Qed.
Example C03_release_ex :
  map (λ s, map (set_contains false 40 s) [3; 35; 36])
    (option_list (set_eval false 40 (SInsert (STokenSet [3; 4]) 35))) =
  [[Some true; Some true; Some true]].
Proof. reflexivity. Qed.

Example C03_example : 32 < 40 ∧ 40 ≤ 128 ∧ repr_width 40 = Some 64%N.
Proof. split_and!; [lia|lia|reflexivity]. Qed.

(** ** C04 *)
Theorem C04_span_get : ∀ sp input,
  let hi := Nat.min (sp_hi sp) (String.length input) in
  (sp_lo sp < sp_hi sp → sp_lo sp ≤ String.length input →
    ∃ r, span_get sp input = Some r ∧ String.length r = hi - sp_lo sp ∧
      ∀ i, i < hi - sp_lo sp → String.get i r = String.get (sp_lo sp + i) input) ∧
  (sp_hi sp ≤ sp_lo sp → span_get sp input = Some EmptyString) ∧
  (span_get sp input = None ↔ sp_lo sp < sp_hi sp ∧ String.length input < sp_lo sp).
Proof. exact span_get_spec. Qed.
Print Assumptions C04_span_get.

Example C04_example : span_get (Span 1 9) "abc" = Some "bc"%string ∧
  span_get (Span 3 1) "abc" = Some ""%string ∧ span_get (Span 5 6) "abc" = None.
Proof. split_and!; reflexivity. Qed.

(** ** C05 *)
Theorem C05_lexer_calls : ∀ k evs,
  lexer_calls k evs =
    take k (map (λ '(es, t), (hull es, t)) (raw_blocks [] evs) ++ replicate k (None, None)).
Proof. exact (λ k, lexer_calls_blocks k []). Qed.
Print Assumptions C05_lexer_calls.

(** The blocks are a partition of the events: nothing lost, nothing invented. *)
Theorem C05_blocks_partition : ∀ evs,
  flat_map (λ '(es, t), map RErr es ++
              match t with Some t => [RTok (t_ty t) (t_span t)] | None => [] end)
    (raw_blocks [] evs) = evs.
Proof. exact (raw_blocks_events []). Qed.
Print Assumptions C05_blocks_partition.

Theorem C05_tokens : ∀ k evs, length evs < k → omap snd (lexer_calls k evs) = raw_tokens evs.
Proof. exact lexer_calls_tokens. Qed.
Print Assumptions C05_tokens.

Example C05_example :
  lexer_calls 4 [RErr (Span 0 1); RErr (Span 2 3); RTok 5 (Span 3 6); RTok 6 (Span 7 8); RErr (Span 8 9)]
  = [(Some (Span 0 3), Some (Token (Span 3 6) 5)); (None, Some (Token (Span 7 8) 6));
     (Some (Span 8 9), None); (None, None)].
Proof. reflexivity. Qed.

(** ** C06 *)
Theorem C06_lexer_spans : ∀ k len evs, raw_ok len evs →
  spans_ok 0 len (out_spans (lexer_calls k evs)).
Proof. exact lexer_spans. Qed.
Print Assumptions C06_lexer_spans.

Example C06_example :
  raw_ok 9 [RErr (Span 0 1); RErr (Span 2 3); RTok 5 (Span 3 6); RTok 6 (Span 7 8); RErr (Span 8 9)].
Proof. cbn. lia. Qed.

(** ** C11 *)
Theorem C11_inside : ∀ len l sp, cells_ok len l → inside l sp = filter (is_inside sp) l.
Proof. exact inside_spec. Qed.
Print Assumptions C11_inside.

Theorem C11_inside_bounds : ∀ len l sp, cells_ok len l →
  match inside_bounds l sp with
  | Some (lo, hi) => lo < hi ∧ hi ≤ length l ∧
      ∀ i c, l !! i = Some c → is_inside sp c ↔ lo ≤ i ∧ i < hi
  | None => ∀ i c, l !! i = Some c → ¬ is_inside sp c
  end.
Proof. exact inside_bounds_spec. Qed.
Print Assumptions C11_inside_bounds.

Theorem C11_at_span : ∀ len l sp c, cells_ok len l →
  at_span l sp = Some c ↔ filter (is_inside sp) l = [c].
Proof. exact at_span_spec. Qed.
Print Assumptions C11_at_span.

(** The doc comment of at_span says "the token whose span equals the input span". *)
Theorem C11_at_span_equal_refuted : ∃ len l sp c, cells_ok len l ∧
  at_span l sp = Some c ∧ t_span (c_tok c) ≠ sp.
Proof. exact at_span_not_equal. Qed.
Print Assumptions C11_at_span_equal_refuted.

Example C11_example :
  let l := map cell_of [Token (Span 0 2) 1; Token (Span 3 4) 2; Token (Span 4 9) 3] in
  cells_ok 10 l ∧ inside l (Span 1 9) = map cell_of [Token (Span 3 4) 2; Token (Span 4 9) 3].
Proof. split; [cbn; lia|reflexivity]. Qed.

(** ** C12 *)
Theorem C12_overlap_partial : ∀ len l sp, cells_ok len l → sp_lo sp < sp_hi sp →
  overlap l sp = filter (is_overlapping sp) l.
Proof. exact overlap_exact. Qed.
Print Assumptions C12_overlap_partial.

(** An empty query strictly inside a token returns that token, although the intersection is empty. *)
Theorem C12_overlap_empty_refuted : ∃ len l sp, cells_ok len l ∧
  overlap l sp ≠ filter (is_overlapping sp) l.
Proof. exact overlap_empty_span. Qed.
Print Assumptions C12_overlap_empty_refuted.

(** What is returned in general, empty and reversed queries included. *)
Theorem C12_overlap_general : ∀ len l sp, cells_ok len l →
  overlap l sp = filter (λ c, sp_lo sp < c_hi c ∧ c_lo c < sp_hi sp) l.
Proof. exact overlap_spec. Qed.
Print Assumptions C12_overlap_general.

Example C12_example :
  let l := map cell_of [Token (Span 0 2) 1; Token (Span 3 4) 2; Token (Span 4 9) 3] in
  cells_ok 10 l ∧ overlap l (Span 1 4) = map cell_of [Token (Span 0 2) 1; Token (Span 3 4) 2].
Proof. split; [cbn; lia|reflexivity]. Qed.

(** ** C13 *)
Theorem C13_ends_at : ∀ len p l pos lo hi, cells_ok len l →
  ends_at_matches_bounds p l pos = Some (lo, hi) ↔
  (lo < hi ∧ hi ≤ length l ∧
   (∃ c, l !! (hi - 1) = Some c ∧ c_hi c = pos) ∧
   (∀ i c, lo ≤ i → i < hi → l !! i = Some c → p c = true) ∧
   (lo = 0 ∨ ∃ c, l !! (lo - 1) = Some c ∧ p c = false)).
Proof. exact ends_at_spec. Qed.
Print Assumptions C13_ends_at.

Theorem C13_begins_at : ∀ len p l pos lo hi, cells_ok len l →
  begins_at_matches_bounds p l pos = Some (lo, hi) ↔
  (lo < hi ∧ hi ≤ length l ∧
   (∃ c, l !! lo = Some c ∧ c_lo c = pos) ∧
   (∀ i c, lo ≤ i → i < hi → l !! i = Some c → p c = true) ∧
   (hi = length l ∨ ∃ c, l !! hi = Some c ∧ p c = false)).
Proof. exact begins_at_spec. Qed.
Print Assumptions C13_begins_at.

Example C13_example :
  let l := map cell_of [Token (Span 0 2) 1; Token (Span 3 4) 2; Token (Span 4 9) 2] in
  cells_ok 10 l ∧ ends_at_matches_bounds (λ c, t_ty (c_tok c) =? 2) l 9 = Some (1, 3) ∧
  begins_at_matches_bounds (λ c, t_ty (c_tok c) =? 1) l 0 = Some (0, 1).
Proof. split; [cbn; lia|split; reflexivity]. Qed.

(** ** C14 *)
Theorem C14_apply_semantic : ∀ len l sp sem, cells_ok len l →
  vec_apply_semantic l sp sem =
    map (λ c, if decide (is_inside sp c) then Cell (c_tok c) (N.lor (c_sem c) sem) else c) l.
Proof. exact vec_apply_spec. Qed.
Print Assumptions C14_apply_semantic.

Theorem C14_apply_commutes : ∀ len l sp1 s1 sp2 s2, cells_ok len l →
  vec_apply_semantic (vec_apply_semantic l sp1 s1) sp2 s2 =
  vec_apply_semantic (vec_apply_semantic l sp2 s2) sp1 s1.
Proof. exact vec_apply_comm. Qed.
Print Assumptions C14_apply_commutes.

Theorem C14_apply_idempotent : ∀ len l sp s, cells_ok len l →
  vec_apply_semantic (vec_apply_semantic l sp s) sp s = vec_apply_semantic l sp s.
Proof. exact vec_apply_idem. Qed.
Print Assumptions C14_apply_idempotent.

Example C14_example :
  let l := map cell_of [Token (Span 0 2) 1; Token (Span 3 4) 2; Token (Span 4 9) 2] in
  cells_ok 10 l ∧
  map c_sem (vec_apply_semantic (vec_apply_semantic l (Span 0 4) 4%N) (Span 3 9) 1%N) = [4%N; 5%N; 1%N].
Proof. split; [cbn; lia|reflexivity]. Qed.

(** ** C63: lex::Map *)
Theorem C63_map_new : ∀ (A : Type) n (d : A),
  length (map_new n d) = n ∧ ∀ id, id < n → map_get (map_new n d) id = Some d.
Proof. exact @map_new_laws. Qed.
Print Assumptions C63_map_new.

Theorem C63_map : ∀ (A : Type) n (m : list A), length m = n →
  (∀ id, id < n → is_Some (map_get m id)) ∧
  (∀ id a, id < n → ∃ m', map_set m id a = Some m' ∧ length m' = n ∧ map_get m' id = Some a ∧
    ∀ j, j ≠ id → map_get m' j = map_get m j) ∧
  map fst (map_iter_zip m) = seq 0 n ∧
  (∀ id a, (id, a) ∈ map_iter_zip m ↔ map_get m id = Some a) ∧
  (∀ f, length (map_update f m) = n ∧
    ∀ id a, map_get m id = Some a → map_get (map_update f m) id = Some (f id a)).
Proof. exact @map_laws. Qed.
Print Assumptions C63_map.

Theorem C63_map_eq : ∀ (A : Type) (eqb : A → A → bool) n (m1 m2 : list A),
  (∀ x y, eqb x y = true ↔ x = y) → length m1 = n → length m2 = n →
  (map_eqb eqb m1 m2 = true ↔ ∀ id, id < n → map_get m1 id = map_get m2 id).
Proof. exact @map_eqb_iff. Qed.
Print Assumptions C63_map_eq.

Example C63_example :
  map_set (map_new 3 0) 1 7 = Some [0; 7; 0] ∧ map_iter_zip [0; 7; 0] = [(0, 0); (1, 7); (2, 0)] ∧
  map_update (λ i x, x + i) [0; 7; 0] = [0; 8; 2] ∧
  map_eqb Nat.eqb [0; 8; 2] [0; 7; 2] = false ∧ map_eqb Nat.eqb [0; 8; 2] [0; 8; 2] = true.
Proof. done. Qed.
