(** Specification vocabulary for [derive_lexicon]. *)
From Coq Require Import String.
From stdpp Require Import prelude list strings.
From Verif Require Import LexModel LexSpec MacroModel.
Local Open Scope nat_scope.

(** The terminals and the regexes a variant declares, in order. *)
Definition terms_of (v : variant) : list term :=
  m ← v_metas v; match m with MTerminal ts => ts | _ => [] end.
Definition regexes_of (v : variant) : list string :=
  m ← v_metas v; match m with MRegex rs => rs | _ => [] end.
Definition has_regex (v : variant) : Prop := ∃ rs, MRegex rs ∈ v_metas v.
(** A terminal without literal is declared. *)
Definition has_bare (v : variant) : Prop := ∃ n, TmAny n ∈ terms_of v.
Definition has_lit (v : variant) (lit : string) : Prop := ∃ n, TmLit n lit ∈ terms_of v.
(** The variant is to be found by the lexer: a regex is given, or all the terminals (at least
    one) have a literal. *)
Definition has_rules (v : variant) : Prop := has_regex v ∨ (terms_of v ≠ [] ∧ ¬ has_bare v).
(** Rule [r] is declared on [v]: its regexes, or, when there is no regex and all terminals
    have a literal, those literals. *)
Definition declared (v : variant) (r : rule) : Prop :=
  match r with
  | RRegex x => x ∈ regexes_of v
  | RToken lit => has_lit v lit ∧ ¬ has_regex v ∧ ¬ has_bare v
  end.
(** Only there for semantic marks: neither a regex nor a terminal. *)
Definition semantic_only (v : variant) : Prop := ¬ has_regex v ∧ terms_of v = [].
(** No semantic-only variant stands before a variant with rules. *)
Definition semantic_last (vs : list variant) : Prop :=
  ∀ i j v w, i < j → vs !! i = Some v → vs !! j = Some w → semantic_only v → ¬ has_rules w.

(** * The declarations [derive_lexicon] accepts *)
Definition at_most_one {A} (P : A → Prop) (l : list A) : Prop :=
  ∀ i j x y, l !! i = Some x → l !! j = Some y → P x → P y → i = j.
Definition is_bare (t : term) : Prop := ∃ n, t = TmAny n.
Definition lit_of (lit : string) (t : term) : Prop := ∃ n, t = TmLit n lit.

Section Valid.
  Variable rx_valid : string → bool.
  Variable rx_find : string → string → option (nat * nat).
  Definition good_regex (r : string) : Prop := rx_valid r = true ∧ rx_find r "" = None.
  Record good_variant (v : variant) : Prop := {
    gv_unit : v_unit v = true;
    gv_attrs : MOther ∉ v_metas v;
    gv_regex : at_most_one (λ m, ∃ rs, m = MRegex rs) (v_metas v);
    gv_terminal : at_most_one (λ m, ∃ ts, m = MTerminal ts) (v_metas v);
    gv_form : TmBad ∉ terms_of v;
    gv_nonempty : ¬ has_lit v "";
    gv_bare : at_most_one is_bare (terms_of v);
    (** a literal is only repeated after a terminal without literal *)
    gv_dup : ∀ i j lit t u, i < j → terms_of v !! i = Some t → terms_of v !! j = Some u →
      lit_of lit t → lit_of lit u → ∃ k w, k < j ∧ terms_of v !! k = Some w ∧ is_bare w;
    gv_needed : has_regex v → terms_of v ≠ [] → has_bare v;
    gv_rules : Forall good_regex (regexes_of v);
    (** every regex finds, in every literal, the whole literal *)
    gv_lits : ∀ r lit, r ∈ regexes_of v → has_lit v lit → rx_find r lit = Some (0, String.length lit);
  }.
  Definition good_decl (d : lexdecl) : Prop :=
    1 ≤ length (d_variants d) ≤ 128 ∧ Forall good_regex (d_ignore d) ∧ Forall good_variant (d_variants d).
End Valid.

(** * Tokens *)
(** Text [w] is what rule [r] describes; [rx_match r w]: [w] is in the language of [r]. *)
Definition rule_matches (rx_match : string → string → Prop) (r : rule) (w : string) : Prop :=
  match r with RRegex x => rx_match x w | RToken lit => w = lit end.
(** The tokenizer finds tokens only by the rules of the generated enum. *)
Definition tokenized (rx_match : string → string → Prop) (a : acc) (src : string) (evs : list raw) : Prop :=
  ∀ t, t ∈ raw_tokens evs → ∃ rs r w, (rs, t_ty t) ∈ derived_logos a ∧ r ∈ rs ∧
    token_src t src = Some w ∧ rule_matches rx_match r w.
