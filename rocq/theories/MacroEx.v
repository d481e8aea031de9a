(** Example declarations for [derive_lexicon]. *)
From Coq Require Import String.
From stdpp Require Import prelude list strings.
From Verif Require Import LexModel LexSpec MacroModel MacroSpec MacroFacts.
Local Open Scope nat_scope.
Local Open Scope string_scope.

(** A regex crate in which every text is the regex [.+]. *)
Definition ex_valid (_ : string) : bool := true.
Definition ex_find (_ s : string) : option (nat * nat) :=
  match s with "" => None | _ => Some (0, String.length s) end.
Definition ex_match (_ s : string) : Prop := s ≠ "".

Definition ex_word := Variant [MRegex [".+"]; MTerminal [TmAny "Word"; TmLit "KwLet" "let"]] true.
Definition ex_op := Variant [MTerminal [TmLit "Eq" "="; TmLit "Plus" "+"]] true.
Definition ex_comment := Variant [MRegex ["#.+"]] true.
Definition ex_sem := Variant [] true.
(** A good declaration: the semantic-only variant comes last. *)
Definition ex_decl := LexDecl [" +"] [ex_op; ex_word; ex_comment; ex_sem].
(** The semantic-only variant comes first. *)
Definition ex_shift := LexDecl [] [ex_sem; Variant [MTerminal [TmLit "A" "a"]] true; Variant [MTerminal [TmLit "B" "b"]] true].
(** A literal is given twice, after a terminal without literal. *)
Definition ex_dup := LexDecl [] [Variant [MRegex [".+"]; MTerminal [TmAny "Word"; TmLit "KwA" "a"; TmLit "KwB" "a"]] true].

Definition ex_out := Acc [0; 1; 2] [[RToken "="; RToken "+"]; [RRegex ".+"]; [RRegex "#.+"]; []] [2; 3]
  [Terminal "Eq" 0 (Some "="); Terminal "Plus" 0 (Some "+"); Terminal "Word" 1 None; Terminal "KwLet" 1 (Some "let")].
Definition ex_shift_out := Acc [1; 2] [[]; [RToken "a"]; [RToken "b"]] [0] [Terminal "A" 1 (Some "a"); Terminal "B" 2 (Some "b")].
Definition ex_dup_out := Acc [0] [[RRegex ".+"]] []
  [Terminal "Word" 0 None; Terminal "KwA" 0 (Some "a"); Terminal "KwB" 0 (Some "a")].

Lemma ex_decl_ok : expand ex_valid ex_find ex_decl = inr ex_out.
Proof. reflexivity. Qed.
Lemma ex_shift_ok : expand ex_valid ex_find ex_shift = inr ex_shift_out.
Proof. reflexivity. Qed.
Lemma ex_dup_ok : expand ex_valid ex_find ex_dup = inr ex_dup_out.
Proof. reflexivity. Qed.

Lemma ex_decl_last : semantic_last (d_variants ex_decl).
Proof.
  intros i j v w L Hi Hj [S1 S2]. destruct i as [|[|[|[|i]]]]; cbn in Hi; try (injection Hi as <-); try done.
  - by destruct S1; exists ["#.+"]; left.
  - destruct j as [|[|[|[|j]]]]; cbn in Hj; try lia; done.
Qed.

Definition ex_src := "let x = y # z".
Definition ex_evs := [RTok 1 (Span 0 3); RTok 1 (Span 4 5); RTok 0 (Span 6 7); RTok 1 (Span 8 9); RTok 2 (Span 10 13)].
Lemma ex_tokenized : tokenized ex_match ex_out ex_src ex_evs.
Proof.
  intros t H. unfold ex_evs in H. cbn in H.
  repeat (apply elem_of_cons in H as [->|H]); [..|by apply not_elem_of_nil in H].
  - exists [RRegex ".+"], (RRegex ".+"), "let". split_and!; [by right; left|by left|done|done].
  - exists [RRegex ".+"], (RRegex ".+"), "x". split_and!; [by right; left|by left|done|done].
  - exists [RToken "="; RToken "+"], (RToken "="), "=". split_and!; [by left|by left|done|done].
  - exists [RRegex ".+"], (RRegex ".+"), "y". split_and!; [by right; left|by left|done|done].
  - exists [RRegex "#.+"], (RRegex "#.+"), "# z". split_and!; [by right; right; left|by left|done|done].
Qed.

Lemma shift_refuted : ∃ rx_valid rx_find d a i v rs,
  expand rx_valid rx_find d = inr a ∧ d_variants d !! i = Some v ∧ (rs, i) ∈ derived_logos a ∧
  (∃ r, declared v r ∧ r ∉ rs) ∧ ∃ r, r ∈ rs ∧ ¬ declared v r.
Proof.
  exists ex_valid, ex_find, ex_shift, ex_shift_out, 2, (Variant [MTerminal [TmLit "B" "b"]] true), [RToken "a"].
  split_and!; [done|done|by right; left| |].
  - exists (RToken "b"). split.
    + cbn. split_and!.
      * exists "B". cbn. left.
      * intros [rs H]. apply elem_of_list_singleton in H. discriminate.
      * intros [n H]. apply elem_of_list_singleton in H. discriminate.
    + intros H. apply elem_of_list_singleton in H. discriminate.
  - exists (RToken "a"). split; [left|]. intros ((n & H) & _). apply elem_of_list_singleton in H. discriminate.
Qed.
Lemma dup_refuted : ∃ rx_valid rx_find d a v i j n m lit, expand rx_valid rx_find d = inr a ∧
  v ∈ d_variants d ∧ i ≠ j ∧ terms_of v !! i = Some (TmLit n lit) ∧ terms_of v !! j = Some (TmLit m lit).
Proof.
  exists ex_valid, ex_find, ex_dup, ex_dup_out, (Variant [MRegex [".+"]; MTerminal [TmAny "Word"; TmLit "KwA" "a"; TmLit "KwB" "a"]] true),
    1, 2, "KwA", "KwB", "a".
  split_and!; [done|left|done|done|done].
Qed.
Lemma takes_refuted : ∃ rx_valid rx_find d a src evs t, expand rx_valid rx_find d = inr a ∧
  (∀ rx_match, tokenized rx_match a src evs) ∧ t ∈ raw_tokens evs ∧ should_extract a (t_ty t) = false ∧
  ∀ y w, y ∈ ac_terms a → tm_ty y = t_ty t → token_src t src = Some w → tm_lit y ≠ None ∧ tm_lit y ≠ Some w.
Proof.
  exists ex_valid, ex_find, ex_shift, ex_shift_out, "a", [RTok 2 (Span 0 1)], (Token (Span 0 1) 2).
  split_and!; [done| |left|done|].
  - intros rx t H. apply elem_of_list_singleton in H as ->.
    exists [RToken "a"], (RToken "a"), "a". split_and!; [by right; left|by left|done|done].
  - intros y w H T [= <-]. cbn in H.
    repeat (apply elem_of_cons in H as [->|H]); [done|done|by apply not_elem_of_nil in H].
Qed.
