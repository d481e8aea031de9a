(** From the source text to the parse: C85.

    [items] are structs and enums with [derive_syntax] as written, [names] the variants of the
    lexicon; [written dbg names items env]: they are accepted and [env] is what their generated
    code implements.  [rule] reads a grammar rule off an item, [named_part] the parts of a tree
    annotated with [semantic(..)], [has_type] is what [Token::semantic] contains (SourceSpec). *)
From Coq Require Import String NArith.
From stdpp Require Import prelude list strings.
From Verif Require Import LexModel LexSpec TableModel StreamModel StreamSpec TypeModel TypeSpec ProduceModel SynMacroModel SynMacroSpec ParseSpec MarkSpec CompleteSpec SourceSpec SourceFacts ParseEx CompleteEx.
Local Open Scope nat_scope.

(** ** C85: parsers generated from items parse what is written and mark what is listed *)
(** Error-free results are parse trees of the grammar as written ... *)
Theorem C85_sound : ∀ extract dbg names items env t md f s x s',
  written dbg names items env → full_tuples env t → no_recover env t → state_ok s →
  run extract (parse env f t (inr md)) s = ODone (inr (Some x)) s' → only_bad_text s s' →
  ∃ l, took extract s l s' ∧ parses (map rule items) (p_src s) (end_of (p_tokens s)) t l x.
Proof. exact source_sound. Qed.
Print Assumptions C85_sound.
(** ... every sentence of it is parsed, if the root is accepted and regular (C36) ... *)
Theorem C85_complete : ∀ extract dbg names items env root md s,
  written dbg names items env → accepted env root md → regular env root → state_ok s →
  lang (map rule items) root (word (p_src s) (to_come extract s)) →
  ∃ f0 x s', parses (map rule items) (p_src s) (end_of (p_tokens s)) root (to_come extract s) x ∧
    took extract s (to_come extract s) s' ∧ only_bad_text s s' ∧
    ∀ f, f0 ≤ f → run extract (parse env f root (inr md)) s = ODone (inr (Some x)) s'.
Proof. exact source_complete. Qed.
Print Assumptions C85_complete.
(** ... and a token gets the semantic type [y] exactly if it lies in a field or variant with [y]
    in its [semantic(..)]. *)
Theorem C85_marks : ∀ extract dbg names items env md f t s x s' i c y,
  written dbg names items env → state_ok s → full_tuples env t → no_recover env t → open_marks env t →
  run extract (parse env f t (inr md)) s = ODone (inr (Some x)) s' → only_bad_text s s' → p_tokens s' !! i = Some c →
  has_type dbg names c y ↔ (∃ c0, p_tokens s !! i = Some c0 ∧ has_type dbg names c0 y) ∨
    ∃ sp, named_part items t x sp y ∧ is_inside sp c.
Proof. exact source_marks'. Qed.
Print Assumptions C85_marks.
(** With errors, all tokens inside such parts of the tree still get it. *)
Theorem C85_kept : ∀ extract dbg names items env md f t s x s' c sp y,
  written dbg names items env → state_ok s →
  run extract (parse env f t (inr md)) s = ODone (inr (Some x)) s' → c ∈ p_tokens s' →
  named_part items t x sp y → is_inside sp c → has_type dbg names c y.
Proof. exact source_kept. Qed.
Print Assumptions C85_kept.

Example C85_ex : written true ex_tys ex_items ex_env ∧ full_tuples ex_env exE ∧ no_recover ex_env exE ∧
  open_marks ex_env exE ∧ accepted ex_env exE (md_get ex_env exE) ∧ regular ex_env exE ∧ state_ok (start "(a)") ∧
  lang (map rule ex_items) exE (word "(a)" (to_come no_extract (start "(a)"))).
Proof.
  split; [exact ex_written|]. split; [within ex_types|]. split; [apply ex_no_recover|]. split; [within ex_types|].
  split; [exact ex_accepted|]. split; [exact ex_regular|]. split; [apply start_ok|].
  apply (source_lang _ _ _ _ _ _ ex_written). exact ex_lang.
Qed.
(** "(a,(b))": [Name] on the identifiers, [List] inside the lists. *)
Example C85_ex_marks :
  match ex_parse ex_env exE "(a,(b))" with
  | ODone (inr (Some x)) s' =>
      map (λ c, map (λ id, set_contains true 2 (c_sem c) id) [0; 1]) (p_tokens s') =
      [[Some false; Some false]; [Some true; Some true]; [Some false; Some true]; [Some false; Some true];
       [Some true; Some true]; [Some false; Some true]; [Some false; Some false]]
  | _ => False
  end ∧ only_bad_text (start "(a,(b))") (match ex_parse ex_env exE "(a,(b))" with ODone _ s' => s' | _ => start "" end).
Proof. split; [by vm_compute|]. exists []. by vm_compute. Qed.
(** In "(a)" the list [a] has span 1-2 and the type [List] on it. *)
Example C85_ex_part :
  match ex_parse ex_env exE "(a)" with
  | ODone (inr (Some x)) s' => named_part ex_items exE x (Span 1 2) "List"
  | _ => False
  end.
Proof.
  vm_compute. eapply n_in_variant; [reflexivity|by intros ?|reflexivity|].
  match goal with |- named_part _ _ (TrSeq [?a; ?b; ?c]) _ _ =>
    eapply (n_field _ 1 _ 1 _ _ ["List"%string] _ [a; b; c] b) end;
    [reflexivity|done|reflexivity| |by left|reflexivity].
  exists [FmSemantic (Some ["List"%string])]. split; left.
Qed.
