(** Parsers on texts (C92).

    [scan rx_match ignore rules p s evs] (ScanSpec): a longest match tokenizer with these rules may report [evs]
    for the text [s], which starts at position [p].  [sum_text]: arithmetic expressions as texts,
    with white space; no reference to tokens.  [rd_lex], [rd_items], [rr_items]: the lexicon and the
    parsers of README.md as written. *)
From Coq Require Import String Ascii.
From stdpp Require Import prelude list strings.
From Verif Require Import LexModel LexSpec SynSetModel TableModel MacroModel MacroSpec StreamModel StreamSpec TypeModel ProduceModel SynMacroModel
  SourceSpec ParseSpec ParseEx ReadmeSpec ReadmeFacts ScanSpec ScanFacts ReadmeText TextEx.
Local Open Scope nat_scope.

(** ** C92: from the text to the tree *)
(** Longest match meets the contract the other theorems ask of the tokenizer: non-empty spans in
    order within the source ([raw_ok], [state_ok]), and tokens described by rules of
    their type (C56, C58). *)
Theorem C92_contract : ∀ rx_match ignore a src evs, scan rx_match ignore (derived_logos a) 0 src evs →
  raw_ok (String.length src) evs ∧ tokenized rx_match a src evs.
Proof. exact (λ rx_match ignore a src evs H, conj (scan_raw_ok _ _ _ _ _ H) (scan_tokenized _ _ _ _ _ H)). Qed.
Print Assumptions C92_contract.
(** Every text can be scanned, whatever the rules, and in one way only when it is without errors
    and no part of it is of two kinds. *)
Theorem C92_scans : ∀ rx_match ignore rules `{!∀ r w, Decision (rx_match r w)} p s, ∃ evs, scan rx_match ignore rules p s evs.
Proof. exact scan_exists. Qed.
Print Assumptions C92_scans.
Theorem C92_unique : ∀ rx_match ignore rules p s evs evs', untied rx_match ignore rules s →
  scan rx_match ignore rules p s evs → no_error evs → scan rx_match ignore rules p s evs' → evs' = evs.
Proof. exact scan_unique. Qed.
Print Assumptions C92_unique.
(** README.md, from the declarations to the tree: if the tokenizer generated from the rules that
    [derive_lexicon] emits takes longest matches, and the two regexes mean what they should, then
    for every ASCII text: [parse] returns a tree, nothing is left and no error is recorded
    exactly if the text is an arithmetic expression. *)
Theorem C92_readme : ∀ rx_valid rx_find rx_match a items env md src evs,
  expand rx_valid rx_find rd_lex = inr a → ascii_classes rx_match →
  items = rd_items ∨ items = rr_items → written true rd_names items env → accepted env (TNamed 0) md →
  all_chars is_ascii src = true → scan rx_match (d_ignore rd_lex) (derived_logos a) 0 src evs →
  (∃ f x s', run (should_extract a) (o ← parse env f (TNamed 0) (inr md); t ← peek; mret (o, t)) (pst_new src evs) = ODone (inr (Some x), None) s' ∧
     p_errors s' = []) ↔ sum_text src.
Proof. exact rd_decides_text. Qed.
Print Assumptions C92_readme.
(** "(x + y1)*z " is an expression, "a b" is not. *)
Example C92_ex : expand (λ _, true) rd_find rd_lex = inr rd_out ∧ ascii_classes rd_match ∧
  written true rd_names rd_items rd_env ∧ written true rd_names rr_items rr_env ∧
  accepted rd_env (TNamed 0) (md_get rd_env (TNamed 0)) ∧ accepted rr_env (TNamed 0) (md_get rr_env (TNamed 0)) ∧
  sum_text "(x + y1)*z " ∧ (∃ evs, scan rd_match (d_ignore rd_lex) (derived_logos rd_out) 0 "(x + y1)*z " evs ∧ no_error evs ∧
    word "(x + y1)*z " (raw_tokens evs) = [(2, "("); (0, "x"); (1, "+"); (0, "y1"); (2, ")"); (1, "*"); (0, "z")]%string) ∧
  scan rd_match (d_ignore rd_lex) (derived_logos rd_out) 0 "a b" ab_evs ∧ ¬ sum_text "a b".
Proof.
  exact (conj rd_lex_ok (conj rd_match_ok (conj rd_written (conj rr_written (conj rd_accepted (conj rr_accepted
    (conj rd_text (conj rd_text_scan (conj ab_scan ab_not))))))))).
Qed.
