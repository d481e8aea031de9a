(** Property theorems about [derive_lexicon] (C56-C58, C61, C62).  [expand rx_valid rx_find d]:
    the declaration [d] is refused ([inl]) or expanded ([inr a]); [rx_valid], [rx_find]: the
    regex crate.  [derived_logos a]: the variants of the generated logos enum with their rules. *)
From Coq Require Import String.
From stdpp Require Import prelude list strings.
From Verif Require Import LexModel LexSpec StreamModel StreamSpec MacroModel MacroSpec MacroFacts MacroEx.
Local Open Scope nat_scope.

(** ** C56: each token type gets its own rules *)
(** The lexer knows exactly the token types declared with rules. *)
Theorem C56_lexed_types : ∀ rx_valid rx_find d a, expand rx_valid rx_find d = inr a →
  (∀ i, i ∈ (derived_logos a).*2 ↔ ∃ v, d_variants d !! i = Some v ∧ has_rules v) ∧ NoDup (derived_logos a).*2.
Proof. exact rules_enum. Qed.
Print Assumptions C56_lexed_types.

(** Missing: declarations with a semantic-only variant before one with rules, for which the
    claim is false. *)
Theorem C56_rules_partial : ∀ rx_valid rx_find d a i rs,
  expand rx_valid rx_find d = inr a → semantic_last (d_variants d) → (rs, i) ∈ derived_logos a →
  ∃ v, d_variants d !! i = Some v ∧ ∀ r, r ∈ rs ↔ declared v r.
Proof. exact rules_right. Qed.
Print Assumptions C56_rules_partial.

Theorem C56_tokens_partial : ∀ rx_valid rx_find rx_match d a src evs t,
  expand rx_valid rx_find d = inr a → semantic_last (d_variants d) →
  tokenized rx_match a src evs → t ∈ raw_tokens evs →
  ∃ v r w, d_variants d !! t_ty t = Some v ∧ declared v r ∧ token_src t src = Some w ∧ rule_matches rx_match r w.
Proof. exact tokens_right. Qed.
Print Assumptions C56_tokens_partial.

(** Finding: a token type misses its own rule and has the rule of another. *)
Theorem C56_refuted : ∃ rx_valid rx_find d a i v rs,
  expand rx_valid rx_find d = inr a ∧ d_variants d !! i = Some v ∧ (rs, i) ∈ derived_logos a ∧
  (∃ r, declared v r ∧ r ∉ rs) ∧ ∃ r, r ∈ rs ∧ ¬ declared v r.
Proof. exact shift_refuted. Qed.
Print Assumptions C56_refuted.

(** In every declaration that starts with a semantic-only variant, the first token type with
    rules is left without any. *)
Theorem C56_semantic_first : ∀ rx_valid rx_find d a v vs i,
  expand rx_valid rx_find d = inr a → d_variants d = v :: vs → semantic_only v →
  (∃ w, d_variants d !! i = Some w ∧ has_rules w) →
  (∀ j w, j < i → d_variants d !! j = Some w → ¬ has_rules w) → ([], i) ∈ derived_logos a.
Proof. exact first_semantic. Qed.
Print Assumptions C56_semantic_first.

Example C56_ex : expand ex_valid ex_find ex_decl = inr ex_out ∧ semantic_last (d_variants ex_decl) ∧
  derived_logos ex_out = [([RToken "="; RToken "+"], 0); ([RRegex ".+"], 1); ([RRegex "#.+"], 2)] ∧
  tokenized ex_match ex_out ex_src ex_evs.
Proof. split_and!; [exact ex_decl_ok|exact ex_decl_last|done|exact ex_tokenized]. Qed.
Example C56_ex_shift : expand ex_valid ex_find ex_shift = inr ex_shift_out ∧
  derived_logos ex_shift_out = [([], 1); ([RToken "a"], 2)].
Proof. split; [exact ex_shift_ok|done]. Qed.

(** ** C57: duplicate terminals are refused *)
Theorem C57_one_bare : ∀ rx_valid rx_find d a v, expand rx_valid rx_find d = inr a → v ∈ d_variants d →
  at_most_one is_bare (terms_of v).
Proof. exact one_bare. Qed.
Print Assumptions C57_one_bare.

(** Missing: a literal repeated after a terminal without literal, which is accepted. *)
Theorem C57_literals_partial : ∀ rx_valid rx_find d a v, expand rx_valid rx_find d = inr a → v ∈ d_variants d →
  ∀ i j n m lit, i < j → terms_of v !! i = Some (TmLit n lit) → terms_of v !! j = Some (TmLit m lit) →
  ∃ k u, k < j ∧ terms_of v !! k = Some (TmAny u).
Proof. exact dup_late. Qed.
Print Assumptions C57_literals_partial.

(** All literals differ when they decide the lexer's rules. *)
Theorem C57_literals_without_bare : ∀ rx_valid rx_find d a v, expand rx_valid rx_find d = inr a → v ∈ d_variants d →
  ¬ has_bare v → ∀ lit, at_most_one (lit_of lit) (terms_of v).
Proof. exact dup_none. Qed.
Print Assumptions C57_literals_without_bare.

Theorem C57_refuted : ∃ rx_valid rx_find d a v i j n m lit, expand rx_valid rx_find d = inr a ∧
  v ∈ d_variants d ∧ i ≠ j ∧ terms_of v !! i = Some (TmLit n lit) ∧ terms_of v !! j = Some (TmLit m lit).
Proof. exact dup_refuted. Qed.
Print Assumptions C57_refuted.

Example C57_ex : ex_word ∈ d_variants ex_decl ∧ has_bare ex_word ∧ ex_op ∈ d_variants ex_decl ∧
  terms_of ex_op = [TmLit "Eq" "="; TmLit "Plus" "+"] ∧
  expand ex_valid ex_find (LexDecl [] [Variant [MTerminal [TmLit "A" "x"; TmLit "B" "x"]] true]) = inl EDupLit ∧
  expand ex_valid ex_find (LexDecl [] [Variant [MRegex [".+"]; MTerminal [TmAny "A"; TmLit "X" "x"; TmAny "B"]] true]) = inl EMultiBare.
Proof. split_and!; [by right; left|by exists "Word"; left|by left|done|done|done]. Qed.

(** ** C58: extraction is decided by having no terminal *)
Theorem C58_extracted : ∀ rx_valid rx_find d a i, expand rx_valid rx_find d = inr a →
  should_extract a i = true ↔ ∃ v, d_variants d !! i = Some v ∧ terms_of v = [].
Proof. exact extract_iff. Qed.
Print Assumptions C58_extracted.

(** A token consumed, or still to come, while running any parser code has a type with a terminal. *)
Theorem C58_reaches_syntax : ∀ rx_valid rx_find d a A (m : M A) src evs x s t,
  expand rx_valid rx_find d = inr a →
  run (should_extract a) m (pst_new src evs) = ODone x s →
  t ∈ consumed s ++ to_come (should_extract a) s → (∀ u, u ∈ raw_tokens evs → t_ty u < length (d_variants d)) →
  ∃ y, y ∈ ac_terms a ∧ tm_ty y = t_ty t.
Proof. exact reach_type. Qed.
Print Assumptions C58_reaches_syntax.

(** Also its text is one that a terminal takes, when the rules are the declared ones (C56). *)
Theorem C58_text_partial : ∀ rx_valid rx_find rx_match d a A (m : M A) src evs x s t,
  expand rx_valid rx_find d = inr a → semantic_last (d_variants d) → tokenized rx_match a src evs →
  run (should_extract a) m (pst_new src evs) = ODone x s →
  t ∈ consumed s ++ to_come (should_extract a) s →
  ∃ y w, y ∈ ac_terms a ∧ tm_ty y = t_ty t ∧ token_src t src = Some w ∧ (tm_lit y = None ∨ tm_lit y = Some w).
Proof. exact reach_text. Qed.
Print Assumptions C58_text_partial.

(** Otherwise there can be tokens no terminal takes. *)
Theorem C58_text_refuted : ∃ rx_valid rx_find d a src evs t, expand rx_valid rx_find d = inr a ∧
  (∀ rx_match, tokenized rx_match a src evs) ∧ t ∈ raw_tokens evs ∧ should_extract a (t_ty t) = false ∧
  ∀ y w, y ∈ ac_terms a → tm_ty y = t_ty t → token_src t src = Some w → tm_lit y ≠ None ∧ tm_lit y ≠ Some w.
Proof. exact takes_refuted. Qed.
Print Assumptions C58_text_refuted.

Example C58_ex : map (should_extract ex_out) [0; 1; 2; 3; 4] = [false; false; true; true; false] ∧
  match run (should_extract ex_out) (_ ← consume; _ ← consume; _ ← consume; _ ← consume; peek) (pst_new ex_src ex_evs) with
  | ODone x s => x = None ∧ length (consumed s) = 4 ∧ p_extracted s = [Token (Span 10 13) 2]
  | _ => False
  end.
Proof. split; [done|by vm_compute]. Qed.

(** ** C61: exactly the well-formed declarations are accepted *)
Theorem C61_accepted : ∀ rx_valid rx_find d,
  (∃ a, expand rx_valid rx_find d = inr a) ↔ good_decl rx_valid rx_find d.
Proof. exact accept_iff. Qed.
Print Assumptions C61_accepted.

Example C61_ex : (∃ a, expand ex_valid ex_find ex_decl = inr a) ∧
  expand ex_valid ex_find (LexDecl [] []) = inl ENumber ∧
  expand ex_valid ex_find (LexDecl [] (replicate 129 ex_sem)) = inl ENumber ∧
  expand ex_valid ex_find (LexDecl [] [Variant [MRegex [".+"]; MTerminal [TmLit "A" "a"]] true]) = inl ERedundant.
Proof. split_and!; [eexists; exact ex_decl_ok|done|by vm_compute|done]. Qed.

(** ** C62: one terminal struct per declared terminal *)
Theorem C62_terminals : ∀ rx_valid rx_find d a i n lit, expand rx_valid rx_find d = inr a →
  Terminal n i lit ∈ ac_terms a ↔ ∃ v, d_variants d !! i = Some v ∧
    match lit with None => TmAny n ∈ terms_of v | Some l => TmLit n l ∈ terms_of v end.
Proof. exact terms_made. Qed.
Print Assumptions C62_terminals.

Theorem C62_count : ∀ rx_valid rx_find d a, expand rx_valid rx_find d = inr a →
  length (ac_terms a) = sum_list (map (λ v, length (terms_of v)) (d_variants d)).
Proof. exact terms_count. Qed.
Print Assumptions C62_count.

Example C62_ex : ac_terms ex_out = [Terminal "Eq" 0 (Some "="); Terminal "Plus" 0 (Some "+");
  Terminal "Word" 1 None; Terminal "KwLet" 1 (Some "let")].
Proof. done. Qed.
