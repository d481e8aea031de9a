(** Theorems about the item given to [derive_lexicon] and about terminals as roots (C81-C83). *)
From Coq Require Import String NArith.
From stdpp Require Import prelude list strings.
From Verif Require Import LexModel LexSpec SynSetModel TableModel CfgSpec StreamModel StreamSpec TypeModel TypeSpec ProduceModel ParseSpec ParseEx
  MacroModel MacroSpec MacroFacts SynMacroModel SynMacroSpec LexItemModel LexItemSpec LexItemFacts LexRootFacts.
Local Open Scope nat_scope.

(** ** C81: what [derive_lexicon] accepts and emits *)
Theorem C81_accepts : ∀ rx_valid rx_find it, (∃ o, snd (expand_lexicon rx_valid rx_find it) = inr o) ↔
  li_generics it = false ∧ ∃ vs ms, li_data it = LdEnum vs ∧ good_lroot (li_attrs it) ms ∧
    good_decl rx_valid rx_find (LexDecl (ignored ms) (map written vs)).
Proof. exact lexicon_accepts. Qed.
Print Assumptions C81_accepts.
(** The emitted enum has the variants in order, valued 0, 1, ..; the tokenizer skips what
    [ignore(..)] lists; [Bit] has the least sufficient width (C01); every terminal is a root if
    [terminal_parse] is given, and none otherwise. *)
Theorem C81_output : ∀ rx_valid rx_find it o vs ms,
  snd (expand_lexicon rx_valid rx_find it) = inr o → li_data it = LdEnum vs → entries (li_attrs it) ms →
  expand rx_valid rx_find (LexDecl (ignored ms) (map written vs)) = inr (lo_acc o) ∧
  lo_skip o = ignored ms ∧
  length (lo_enum o) = length vs ∧
  (∀ i v, vs !! i = Some v → lo_enum o !! i = Some (lv_name v, i)) ∧
  repr_width (length vs) = Some (lo_width o) ∧
  (∀ t, t ∈ lo_roots o ↔ LrTermParse ∈ ms ∧ t ∈ ac_terms (lo_acc o)).
Proof. exact lexicon_output. Qed.
Print Assumptions C81_output.

(** [#[teleparse(ignore(" "), terminal_parse)] /// doc
    enum T { #[teleparse(terminal(A = "a"))] X = 7, /// doc
             #[teleparse(terminal(B = "b"))] Y }] *)
Definition ex_item : litem :=
  LItem false [ATele (Some [LrIgnore (Some [" "%string]); LrTermParse]); AOther "doc"]
    (LdEnum [LVariant [ATele (Some [MTerminal [TmLit "A" "a"]])] "X" true true;
             LVariant [AOther "doc"; ATele (Some [MTerminal [TmLit "B" "b"]])] "Y" false true]).
Definition ex_rx (r x : string) : option (nat * nat) := if String.eqb r x then Some (0, String.length x) else None.
Definition ex_loutput : loutput :=
  LOutput [("X"%string, 0); ("Y"%string, 1)] 8 [" "%string]
    (Acc [0; 1] [[RToken "a"]; [RToken "b"]] [] [Terminal "A" 0 (Some "a"%string); Terminal "B" 1 (Some "b"%string)])
    [Terminal "A" 0 (Some "a"%string); Terminal "B" 1 (Some "b"%string)].
Example C81_ex : snd (expand_lexicon (λ _, true) ex_rx ex_item) = inr ex_loutput.
Proof. by vm_compute. Qed.

(** ** C82: [derive_lexicon] keeps what else is written on the enum *)
(** It does not: documentation, other attributes and discriminants have no influence at all on
    what is emitted for an enum it accepts. *)
Theorem C82_dropped : ∀ rx_valid rx_find it,
  snd (expand_lexicon rx_valid rx_find (bare_item it)) = snd (expand_lexicon rx_valid rx_find it).
Proof. exact lexicon_drops. Qed.
Print Assumptions C82_dropped.
Theorem C82_refuted : ∃ rx_valid rx_find it o vs v, snd (expand_lexicon rx_valid rx_find it) = inr o ∧
  li_data it = LdEnum vs ∧ vs !! 0 = Some v ∧ lv_disc v = true ∧ AOther "doc" ∈ li_attrs it ∧
  snd (expand_lexicon rx_valid rx_find (bare_item it)) = inr o.
Proof.
  eexists (λ _, true), ex_rx, ex_item, ex_loutput, _, _. split_and!; [by vm_compute|done|done|done| |by vm_compute].
  apply elem_of_list_further, elem_of_list_here.
Qed.
Print Assumptions C82_refuted.
(** When the enum is refused it is emitted with the error, without its teleparse attributes; if
    the attributes on the item itself are the reason, those on the variants stay. *)
Theorem C82_partial : ∀ rx_valid rx_find it e, snd (expand_lexicon rx_valid rx_find it) = inl e →
  fst (expand_lexicon rx_valid rx_find it) = clean_litem it ∨
  (e = LGenerics ∧ fst (expand_lexicon rx_valid rx_find it) = it) ∨
  ((¬ ∃ ms, good_lroot (li_attrs it) ms) ∧
   fst (expand_lexicon rx_valid rx_find it) = LItem (li_generics it) (foreign (li_attrs it)) (li_data it)).
Proof. exact lexicon_refused. Qed.
Print Assumptions C82_partial.
Example C82_ex :
  bare_item ex_item ≠ ex_item ∧
  let v := LVariant [AOther "doc"; ATele (Some [MOther])] "X" true true in
  let it := LItem false [AOther "doc"] (LdEnum [v]) in
  snd (expand_lexicon (λ _, true) ex_rx it) = inl (LVariants EUnknownAttr) ∧
  fst (expand_lexicon (λ _, true) ex_rx it) = LItem false [AOther "doc"] (LdEnum [LVariant [AOther "doc"] "X" true true]).
Proof. split; [done|]. by vm_compute. Qed.

(** ** C83: a terminal as root *)
(** The metadata of a terminal is always found. *)
Theorem C83_metadata : ∀ env k y lit iter, iter ≡ₚ [(PTok k y lit, ETok y lit)] →
  ∃ md, root_metadata env (TTok k y lit) iter = Some (inr md).
Proof. exact tok_accepted. Qed.
Print Assumptions C83_metadata.
(** Parsing takes the next token if the terminal matches it, and takes nothing and returns
    nothing if it does not.  At the end of the input a terminal with a literal makes up a
    token. *)
Theorem C83_parse : ∀ extract env k y lit md f s, state_ok s → accepted env (TTok k y lit) md →
  ∃ o s', run extract (parse env (S f) (TTok k y lit) (inr md)) s = ODone (inr o) s' ∧
  match head (to_come extract s) with
  | Some t => ∃ x, text_of (p_src s) t = Some x ∧
      (covers y lit (t_ty t, x) → o = Some (TrTok t) ∧ consumed s' = consumed s ++ [t] ∧
         to_come extract s = t :: to_come extract s' ∧ only_bad_text s s') ∧
      (¬ covers y lit (t_ty t, x) → o = None ∧ p_tokens s' = p_tokens s ∧ to_come extract s' = to_come extract s)
  | None => p_tokens s' = p_tokens s ∧ to_come extract s' = to_come extract s ∧
      o = match lit with Some _ => Some (TrTok (Token (at_end (p_src s)) y)) | None => None end
  end.
Proof. exact tok_parse. Qed.
Print Assumptions C83_parse.
(** So for the terminals declared in a lexicon with [terminal_parse]: each is a root, and parsing
    it succeeds at a token exactly if the token has the type of the variant where the terminal
    is declared and, if it is declared with a literal, that text. *)
Theorem C83_declared : ∀ rx_valid rx_find it o vs ms k t,
  snd (expand_lexicon rx_valid rx_find it) = inr o →
  li_data it = LdEnum vs → entries (li_attrs it) ms → lo_roots o !! k = Some t →
  ∃ i v, vs !! i = Some v ∧
  match tm_lit t with None => TmAny (tm_name t) ∈ terms_of (written v) | Some l => TmLit (tm_name t) l ∈ terms_of (written v) end ∧
  ∀ extract env f s, state_ok s → ∃ md r s', accepted env (terminal_ty k t) md ∧
    run extract (parse env (S f) (terminal_ty k t) (inr md)) s = ODone (inr r) s' ∧
    ∀ tk x, head (to_come extract s) = Some tk → text_of (p_src s) tk = Some x →
      (r = Some (TrTok tk) ↔ t_ty tk = i ∧ match tm_lit t with None => True | Some l => x = l end).
Proof. exact declared_parse. Qed.
Print Assumptions C83_declared.
Example C83_ex_declared : snd (expand_lexicon (λ _, true) ex_rx ex_item) = inr ex_loutput ∧
  lo_roots ex_loutput !! 1 = Some (Terminal "B" 1 (Some "b"%string)).
Proof. split; by vm_compute. Qed.
Example C83_ex :
  let md := md_get [] tL in
  accepted [] tL md ∧ state_ok (start "(a") ∧
  match run no_extract (parse [] 1 tL (inr md)) (start "(a") with
  | ODone (inr (Some (TrTok t))) s' => t = Token (Span 0 1) 1 ∧ p_errors s' = [] ∧ length (to_come no_extract s') = 1 | _ => False end ∧
  match run no_extract (parse [] 1 tL (inr md)) (start "a(") with
  | ODone (inr None) s' => length (p_errors s') = 1 | _ => False end ∧
  match run no_extract (parse [] 1 tL (inr md)) (start "") with
  | ODone (inr (Some (TrTok t))) s' => t = Token (Span 0 0) 1 ∧ length (p_errors s') = 1 | _ => False end.
Proof. split; [apply md_get_accepted; by vm_compute|]. split; [vm_compute; lia|]. by vm_compute. Qed.
