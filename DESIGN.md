# Formal model of teleparse in Rocq (Coq 8.16.1)

The code under study is /repo: teleparse, an LL(1) parser library whose grammars are Rust types.
The model is hand-written Gallina in `rocq/theories`.  It follows the Rust code function by function,
and every model definition has a comment citing the file and lines it models and what is simplified.
The properties are in `properties.jsonl`; `MANIFEST.json` maps them to theorems.

## 1. Layout

| files | content |
|-------|---------|
| `LexModel.v` | token type ids and bits, `lex::Set`, `lex::Map`, `Span`, `Token`, the logos wrapper, `TokenVec` |
| `SynSetModel.v` | `LitSet`, `TerminalSet`, FIRST/FOLLOW set operations |
| `TableModel.v` | FIRST and FOLLOW builders, conflict and recursion checks, jump tables, `Metadata::build`, over an arbitrary type of symbol ids |
| `TypeModel.v` | the syntax types, their productions, production ids, registration |
| `StreamModel.v` | the `Parser` token stream, results, the free monad `M` of programs over the stream, its interpreter `run` |
| `ProduceModel.v` | `produce` of every `tp` type and of derived structs and enums; `Parser::parse` |
| `MacroModel.v` | `derive_lexicon` |
| `SynMacroModel.v` | `derive_syntax`: what is accepted, what is generated, the emitted item |
| `LexItemModel.v` | `derive_lexicon` around that: the attributes of the item, the emitted enum, terminals as roots |
| `DeriveModel.v` | `derive(ToSpan)`, `derive(Node)`: what is accepted, the generated code and what it does |
| `DebugModel.v` | printed names of productions, texts of grammar errors, `Error::message` |
| `PrintModel.v` | equality and `Debug` of terminal sets, `Debug` of jump tables |
| `RootModel.v` | `Root::parse`, `Root::assert_ll1` (the generated test) |
| `ViewModel.v` | queries on slices (`overlap(_mut)`, `inside(_mut)`, `ends_at_matches(_mut)`, `begins_at_matches(_mut)`) one after the other, `apply_semantic` through them, `Cell::types` |
| `InferModel.v` | the compiler's inference of the lexicon type (`Production::L`) |
| `IterModel.v` | `Plus` and `Star` with any container |
| `Utf8Model.v` | the interpreter with the character boundary test at every slice |
| `*Spec.v` | specification vocabulary: small definitions independent of the modelled algorithms (see below) |
| `*Facts.v` | lemmas |
| `*Ex.v` | concrete grammars and inputs used in examples and refutations |
| `TestKit.v`, `RepoTests.v`, `RepoTests2.v` | the repository's own unit tests, replayed on the model by computation (see §2) |
| `P_*.v` | the property theorems and nothing else: statement, `exact lemma`, `Print Assumptions`, examples showing that the hypotheses are met by a non-trivial case |

Specifications: `LexSpec` (sets as predicates, spans in order, blocks of a token stream), `CfgSpec` (derivations of
sentential forms, nullable, FIRST, FOLLOW, LL(1), clash), `TypeSpec` (well-formed declarations, grammar of a type),
`StreamSpec` (`state_ok`, consumed and remaining tokens), `ParseSpec` (parse trees of a type for a token sequence; errors),
`CompleteSpec` (conditions for completeness), `LoopSpec`, `MarkSpec` (annotated parts), `MacroSpec` (declared rules of a variant),
`SynMacroSpec` (well-formed items, members and their listed token types), `VisitSpec` (the analysis with counted calls), `ExtendSpec` (declarations with more variants), `LayoutSpec` also says when two tokens are alike, and what grammars and sources with other literals are, `RenameSpec` (token types, declarations and terminals under other numbers), `RefactorSpec` (types that unfold to the same), `LeafSpec` (tokens of a tree), `ListSpec` (what lists and `Recover` may skip), `DebugSpec` (text of a span, printed items of a set), `SourceSpec` (grammar and annotated parts read off the items as written), `ReadmeSpec` (the items of the README and an independent description of arithmetic expressions), `CostSpec` (number of operations of a run), `PrefixSpec` (beginnings of sentences), `ScanSpec` (longest match tokenizers, arithmetic expressions as texts), `IterSpec` (containers), `LayoutSpec` (equal up to positions), `BookSpec` (decisions by one token), `InferSpec` (what a type begins with; which lexicons have to be found first), `NextSpec` (sentences one after the other), `RepairSpec` (trees of repaired inputs), `ViewSpec` (tokens given by chains of queries), `EditSpec` (what is left out, with errors), `ScatterSpec` (items scattered over a source), `BrokenSpec` (lists with broken elements), `StmtSpec` (sources made of statements), `ThreadSpec` (calls of roots from several threads), `RoundSpec` (rounds of the grammar analysis), `BlockSpec` (lists of statements inside a source), `PartSpec` (a part that two grammars have in common), `CleanSpec` (what may follow a `Punct`; calls one after the other), `SugarSpec` (types without abbreviations), `PunctSpec` (the recursive struct and its trees).

## 2. Trusted base

* Coq's kernel, its `vm_compute` (used in examples and refutations), and the reading of the theorem statements and the specification files.
* `Print Assumptions` under every theorem prints "Closed under the global context": no theorem depends on any axiom.
* No axiom, parameter or conjecture is declared in this development, nothing is admitted, no kernel check is switched off,
  no functor or module type is defined.
* The libraries used are Coq's standard library and std++ (`prelude`, `list`, `gmap`, `strings`, `relations`).  Loading std++
  loads Coq's own `ssreflect`, and with it the seven constants of Coq's `ssrunder` module type, which a listing of the
  loaded environment shows as axioms although no theorem uses them: `Coq.ssr.ssrunder.Under_rel.Over_rel`, `Under_rel_from_rel`, `over_rel`,
  `over_rel_done`, `Under_rel`, `Under_relE`, `under_rel_done`.
* That the model is faithful to the Rust code.  This is by reading; nothing here was extracted or run against Rust.  As a check on the reading,
  all unit and integration tests of the repository that concern modelled code (`tp_impl/*.rs`, `lex/*.rs`, `syntax/*.rs`, `tests/*.rs`, `tests/ui/*`) are replayed in
  `RepoTests.v` and `RepoTests2.v`: same declarations, inputs and call sequences, with the expected trees, error positions and sets, remaining texts
  and grammar-error texts of the Rust assertions.  All agree.  (They are tests of the model, not proofs; logos is replaced by a small longest-match lexer there.)

## 3. What is modelled

* `packages/teleparse/src/lex`: `set.rs`, `map.rs`, `span.rs`, `token.rs`, `lexer.rs`, `vec.rs` (all queries, with std's `binary_search_by`),
  `lexicon.rs` (as generated).
* `packages/teleparse/src/syntax`: `lit_set.rs`, `term_set.rs`, `first/*`, `follow/*`, `jump.rs`, `metadata.rs`, `ast.rs`, `error.rs`.
* `packages/teleparse/src/parser`: `parser_impl.rs`, `info.rs`, `tree.rs`.
* `packages/teleparse/src/tp_impl`: all `Production` and `Produce` implementations.
* `packages/macros/src`: `lexicon.rs`, `syntax.rs`, `to_span.rs`, `node.rs` and the helpers of `prelude.rs` they use; `root.rs` as
  the metadata call and the flags whether root code and test are emitted.

### Not modelled

* The tokenizer generated by logos.  It is a list of raw events (token type or error, with span), universally quantified,
  where needed under the contract that spans are non-empty, increasing and within the source (`state_ok`).  For C56-C58 the contract is that
  a token of rule i matches rule i.  `ScanSpec` has a contract in terms of the rules, longest match (`scan`), used in C92, which also shows that it implies the other two.  Rule priority is not modelled:
  among equally long matches `scan` may take any.  That logos-generated code takes longest matches is its documentation's claim, not checked here.
* UTF-8: sources are Coq `string`s of bytes, and slicing inside a character is not a panic in `run`.  `Utf8Model` adds the boundary test of `str` slicing, and C76 shows
  that it never fires when the tokenizer's spans lie on character boundaries (which logos guarantees for `str` input; not modelled).  That the bytes are valid UTF-8 is not needed.
* Integer overflow of positions (`usize`), memory exhaustion, stack size (C87 bounds the depth of `produce` calls linearly in the tokens; that a stack of given size suffices is not claimed).
* `FromStr` of user types (`tp::Parse` keeps the text), `Display`, `Debug`, `Hash` and documentation output (other than `Production::debug`, `Error::message`, and `Debug` of terminal sets and jump tables, as lists of entries), iterators and `Deref` of the collection types (they are lists).
* The container `V` of `tp::Plus<V, T>` and `tp::Star<V, T>` is a list in `produce`.  `IterModel` has any `FromIterator` (as far as its use of the iterator goes); C93 shows that containers that ask for elements
  until there are none and then stop behave as the list, and that others need not.
* `Rc`, lifetimes.  The metadata of a root is a value computed once; `ThreadModel` has the `OnceLock` that keeps it, with std's contract (one closure runs, other threads wait), not its code. A parse is one step of a thread there (threads share nothing else).
* `TypeId` values: the id of a production is the production term itself, so different productions have different ids;
  the order of `TypeId`s, which decides the iteration order of the maps, is an arbitrary order of the list of declarations (C18).
* `syntax/passthrough.rs` (unused), `test.rs`, `packages/book`, `packages/mono-dev`.
* `syn`'s parsing of attributes and the shape of the emitted token streams: a declaration is the parsed attribute data.

## 4. Modelling decisions

* Positions and token type ids are `nat`.  Bit sets are `N` with an explicit storage width.
* The parser code is written in a free monad `M` whose operations are the stream operations of `Parser`.  `run` interprets it on concrete
  parser states (vectors, peeked token, pending events); `arun` on abstract states (consumed cells, remaining tokens).  `run_abs` relates them,
  so that properties proved on abstract states hold of the concrete ones.
* Loops are fuelled.  Exhaustion is the separate outcome `OFuel`; theorems either assume a finished run (`ODone`) or prove that enough fuel exists (C16, C19, C30, C32, C87).
  More fuel never changes a finished run (FuelFacts).
* Rust panics (slice out of range, `unwrap`) are explicit outcomes; C50 and C64 show they do not happen there.
* Theorems about `produce` are stated for arbitrary `first`, `follow`, `jump` functions where the property does not depend on the grammar analysis,
  and for `accepted` metadata (built by the modelled `Metadata::build`) where it does.
* A result has `value r` (the tree, if any) and `errors_of r`; `Success` is a value without errors, `Recovered` both, `Panic` no value.

## 5. Findings

Each is a theorem about the faithful model, with a concrete witness.

* **C03** lexicon with more than 32 variants: `1 << id` is computed in i32 (macros/src/lexicon.rs): panics with overflow checks, otherwise variant 32 aliases variant 0; variant 31 sign-extends.
* **C11** `TokenVec::at_span` returns the only token inside the span; the documentation says the token whose span equals it (the repository's own test relies on the code's behaviour).
* **C12** `TokenVec::overlap` with an empty span inside a token returns that token.
* **C15** `LitSet::clear` leaves `Any` in place (lit_set.rs), so `TerminalSet::clear` does not empty the set.  Consequences: **C23**, **C25** spurious sequence conflicts reject LL(1) grammars.
* **C21** FOLLOW misses terminals behind a nullable element strictly inside a sequence.  Consequences: **C26** accepted grammars that are not LL(1), **C37** accepted grammars with sentences that do not parse, **C38** ambiguous accepted grammars.
* **C24** the message of a sequence conflict names the last non-nullable element instead of one that takes part.
* **C29** the `LeftRecursion` error is never produced; left recursion is reported as another conflict.
* **C33** accepted grammars on which parsing does not terminate: a nullable enum below `Recover` with an empty tail (`C33_refuted`) or below an `Option` followed by a literal (`C33_option_refuted`: the option swallows the failure, the missing literal is made up, the list starts again at the same place), and a type without finite sentences (`C33_unproductive_refuted`).
* **C34** `tp::Loop` accepts the empty input, which its production does not derive; **C37** `Loop` below the root swallows what follows it.
* **C35**, **C40** `tp::Recover` at the end of input fails without an error, and an outer `Recover` can turn that into an error-free result. With `Loop<Recover<T, D>>` (C104) a last statement that lacks only its end is dropped without an error (`C104_open_ex`: `a,b)c,d`).
* **C37** (others) an enum with a nullable variant panics on look-aheads in its FOLLOW; a `Split` with nullable delimiter stops early.
* **C44** with a nullable enum, `Loop` stops with `NoAdvance` although the grammar is accepted.
* **C48** a node that begins with an absent optional part starts at the end of the previous token, not at its own first token.
* **C49** spans of recovered trees can be reversed at the end of the input.
* **C56** (lexicon.rs 261-269, 289) a variant without rules declared before a variant with rules shifts the lexer's rules by one; **C58** then tokens exist that no terminal takes.
* **C57** a literal repeated after a terminal without literal is accepted.
* **C74** (syntax.rs 416-443) a list entry with an unknown name in a field's or variant's teleparse attribute (for example a misspelt `semantics(..)`) is accepted and dropped;
  `hook(..)` is parsed and dropped.  `semantic()` with an empty list is accepted, but the generated `token_set!` does not compile (C73_compiles).
* **C78** (to_span.rs) `derive(ToSpan)` accepts an empty tuple struct, an empty tuple variant and an enum without variants, and emits code that does not compile.
* **C79** (node.rs) `derive(Node)` accepts structs with named fields, but the initializer it generates for them never compiles.
* **C80** (prelude.rs 22-36) a derive macro that refuses its item emits the item again next to the error, so the user also sees "defined multiple times".
* **C82** (lexicon.rs 275-282) `derive_lexicon` drops documentation, other attributes and discriminants of the enum and its variants without a message.
* **C83** a terminal with a literal, parsed as root at the end of the input, yields a made-up token (with an error), while one without literal yields nothing.
* **C70** (option.rs 17-28) an optional sequence that begins with an optional part and ends with a repetition is printed in grammar errors as a different production: `Option<(Option<Ident>, Plus<+>)>` prints as `(Ident)? ( + )*`.
* **C89** (split.rs 136-143, punct.rs 180-187, recover.rs 43-48) when an element of a list (or a part of `Recover`) fails, only the last of its errors is kept: an earlier one, of a literal that was
  missing and made up, is dropped, so the first offending token goes unreported.  Whether it is reported depends on what comes later (`C89_refuted`, `C89_refuted_ex`).
  The parser shown in README.md is affected: on `a*(a+*a b` the second `*` goes unreported (`C89_readme_refuted`); the recursive variant in tests/book_ex_recur.rs is not (`C89_readme_recursive`).
* **C90** (split.rs 117-162, recover.rs 34-120) errors are not listed in the order of the source: a list element that is found after skipping text and that recovers with errors has these put before the
  error for the text skipped.  The parser shown in README.md on `a+*(a` lists 5..5 before 2..3 (`C90_readme_refuted`); `Recover<a, ("(", a, ")")>` on `,(a` lists 3..3 before 0..1 (`C90_recover_refuted`).
* **C93** (iter.rs 186-206) `ProduceIter` is not fused: after an element has failed it answers `None`, but goes on with later elements when asked again (`C93_unfused_refuted`).  Only containers that ask again notice.
* **C97** (punct.rs) a `tp::Punct` that can end the root: after a trailing delimiter only the end of the input or a token of FOLLOW ends the list, and there FOLLOW has no token.  Whatever comes next
  is reported and skipped: with root `Punct<Ident, ",">`, `a(` leaves `(` for the next call, `a,(` reports and drops it (`C97_punct_refuted`, `C97_punct_ex`).
* **C98** (tree.rs 23-25) `Root::parse` drops the parser with the errors recorded and ignores what comes after the tree: `a` and `a)` have the same answer for root `Ident` (`C98_trailing_refuted`),
  and `(Ident, ")")` on `a` is answered with a tree with a made-up token (`C98_errors_refuted`).

Further observations (no theorem): `Parser`'s `invalid_tokens` field of `info.rs` is never filled; list attributes other than the known ones on
lexicon variants are silently ignored; `syntax/passthrough.rs` is unused.
The error for a missing element of a list also covers the token after the stray ones, the next delimiter, and with `Split` the first token after the list, though that is parsed (split.rs 150-153; `C103_run_ex`: `)` at 10..11).
The book differs from the code in places: tp/recover.md shows the head of `"1;"` as `Node::new(0..1, None)`, but it is at 0..0 (as in the repository's tests); tp/loop.md
gives the production `Loop<T> => T Loop<T>`, which has no sentence, while the code registers one or more `T`; tp/delimited.md speaks of several delimiters between elements of `Split`,
which always has one more element than delimiters (C45).

## 6. Tests of the theorems

`seeded/LOG.jsonl` has one line per wrong program tried: a definition of the model was edited as a realistic bug would, in a copy, and everything rebuilt.
Lemmas whose proofs broke were admitted in the copy, and a theorem counts as failed when it depends on one of them or breaks itself.
Theorems added or tightened because an edit survived: `C63_map` (map lookups), `C15_to_repr` (listed items), `C64_remaining`, `C65_*` (tokens of recovered trees),
`C66_*` (list recovery), `C68_expected` (listed sets), `C08_current_span`, `C09_parse_token`, `C10_parse_token_lit` (the position used at the end of the input), `C70_box_partial`, `C84_texts` (texts of grammar errors).

## 7. Properties

| id | property | status | theorems | method and remarks |
|----|----|----|----|----|
| C01 | Token-type bit set behaves as a mathematical set | proved | `C01_set_algebra`, `C01_set_inclusion` | LexModel `set_eval` over set expressions; bitwise extensionality on `N` for widths that hold all bits. lexicons of 1..32 variants |
| C02 | Set iteration lists the members once, in order, and stays exhausted | proved | `C02_set_iter` | LexModel `set_iter`; induction on the remaining bits.  |
| C03 | Bit sets stay correct for the advertised maximum of 128 variants | partial | `C03_wide_refuted`, `C03_sign_refuted`, `C03_low_partial`, `C03_checked_partial`, `C03_release_partial` | Same model, `1 << id` as an i32 with wrap, overflow check flag and sign extension. The claim is false of the code. Proved instead: sets are right for programs that use only the first 32 types, a checked build is right whenever it does not panic, and an unchecked build computes exactly the sets in which types equal modulo 32 are one type (`folded` in LexSpec). Missing: types 32 and above, which is where the claim fails |
| C04 | Span::get returns exactly the spanned text | proved | `C04_span_get` | LexModel `span_get` with explicit panic value, against `substring`.  |
| C05 | The lexer wrapper loses and invents nothing | proved | `C05_lexer_calls`, `C05_blocks_partition`, `C05_tokens` | LexModel `lexer_next`; induction on the raw event list of the tokenizer.  |
| C06 | Lexer output is positionally ordered and disjoint | proved | `C06_lexer_spans` | Same induction, spans in order.  |
| C07 | The token stream is conserved by every history of stream calls | proved | `C07_tokens`, `C07_extracted`, `C07_extracted_never_reach_syntax`, `C07_bad_text`, `C07_bad_text_errors`, `C07_all_read`, `C07_start_in_order`, `C07_in_order` | StreamModel; every history is a program of the free monad `M`; refinement `run_abs` from the concrete parser state to consumed / to come. histories are programs in a free monad whose later calls may depend on earlier answers |
| C08 | Peek is idempotent and consume returns what peek showed | proved | `C08_peek`, `C08_peek_twice`, `C08_peek_invisible`, `C08_consume_is_peek`, `C08_consume`, `C08_current_span` | Same refinement.  |
| C09 | parse_token consumes only on match | proved | `C09_parse_token` | Same refinement.  |
| C10 | parse_token_lit matches or inserts as documented | proved | `C10_parse_token_lit` | Same refinement.  |
| C11 | TokenVec::inside returns exactly the tokens inside the span | proved | `C11_inside`, `C11_inside_bounds`, `C11_at_span`, `C11_at_span_equal_refuted` | LexModel models std binary search on `Vec`; search contract on sorted vectors (VecFacts).  |
| C12 | TokenVec::overlap returns exactly the overlapping tokens | partial | `C12_overlap_partial`, `C12_overlap_empty_refuted`, `C12_overlap_general` | As C11. false for empty query spans |
| C13 | ends_at_matches / begins_at_matches return the maximal run | proved | `C13_ends_at`, `C13_begins_at` | As C11.  |
| C14 | apply_semantic touches exactly the tokens inside the span | proved | `C14_apply_semantic`, `C14_apply_commutes`, `C14_apply_idempotent` | As C11; the index range that `apply_semantic` writes.  |
| C15 | Terminal set operations are exact | partial | `C15_new`, `C15_insert`, `C15_one`, `C15_insert_changed`, `C15_insert_e`, `C15_insert_e_changed`, `C15_remove_e`, `C15_union`, `C15_union_changed`, `C15_intersects`, `C15_intersection_repr`, `C15_clear_exact`, `C15_clear_refuted`, `C15_to_repr` | SynSetModel; denotation of a set as predicate on (type, text) and epsilon. All operations exact except clear: the faithful model violates the property (C15_clear_refuted: a literal-less terminal survives clear); C15_clear_exact characterises what clear leaves. |
| C16 | FIRST construction terminates | proved | `C16_first_terminates` | TableModel; measure on the table: every changing pass grows one of finitely many entries. Number of passes bounded for every list of declarations; more fuel gives the same table. |
| C17 | FIRST table equals derivability | proved | `C17_first_exact` | Soundness by rule induction on passes, completeness from the saturated table, against derivations in CfgSpec. Against derivations of sentential forms (CfgSpec). |
| C18 | FIRST and FOLLOW do not depend on registration or TypeId order | proved | `C18_order_independent` | Exactness of all tables (C17, C21) plus congruence of all checks under set equality (OrderFacts). Same error value (including the listed items), or tables with the same members and the same predictive table. |
| C19 | FOLLOW construction terminates | proved | `C19_follow_terminates` | As C16 for FOLLOW.  |
| C20 | FOLLOW table contains only real followers | proved | `C20_follow_sound` | Rule induction, sentential forms from the root. For declarations reachable from the root, which is what registration produces. |
| C21 | FOLLOW table contains all real followers | partial | `C21_follow_exact_as_coded`, `C21_follow_complete_eof`, `C21_follow_complete_partial`, `C21_textbook`, `C21_follow_complete_refuted` | Exact characterisation of the coded relation; completeness from it. False in general (finding): followers behind a nullable inner element are missed. Proved: exact characterisation of what is computed; complete for end of input; complete when no sequence has a nullable element strictly inside; the real followers are exactly those of the textbook rules, so what is missed is known. |
| C22 | FIRST/FIRST conflicts are reported exactly | proved | `C22_first_first_reported`, `C22_first_first_rejected` | CheckFacts/LocalFacts: checks against their declarative statement, order of traversal included. A reported conflict is a real one, earliest first, with exactly the common items; any reachable clash leads to rejection (possibly with another error found earlier in the traversal). |
| C23 | Sequence FIRST/FOLLOW conflicts are reported exactly | partial | `C23_seq_reported`, `C23_seq_rejected`, `C23_seq_reported_partial`, `C23_seq_refuted` | As C22. Every real conflict is rejected. The converse is false (finding): LitSet::clear keeps Any, giving spurious conflicts; proved without nullable elements that start with all texts of a type. |
| C24 | Sequence conflict messages name an element that takes part | partial | `C24_seq_names_refuted`, `C23_seq_reported` | As C22. False (finding): the element named is the last non-nullable one (or the first). C23_seq_reported characterises it. |
| C25 | Every rejection is justified | partial | `C25_rejection_justified_partial`, `C25_rejection_refuted` | As C22. False for sequence conflicts caused by LitSet::clear; proved for all other errors and, for sequence conflicts, without open nullable elements. |
| C26 | Every accepted grammar is LL(1) | partial | `C26_accepted_ll1_partial`, `C26_accepted_table_partial`, `C26_accepted_refuted` | As C22 plus C17, C20, C21. False in general because of C21; proved when no sequence has a nullable element strictly inside, and when the FOLLOW table misses no token that both starts and follows a nullable choice. |
| C27 | The predictive table selects the right variant | proved | `C27_jump_exact` | JumpFacts; lookups against CfgSpec derivations.  |
| C28 | Accepted grammars are not left recursive | proved | `C28_not_left_recursive` | A left recursive accepted grammar would give a FIRST/FIRST or FIRST/FOLLOW clash or an unproductive loop; MetaFacts.  |
| C29 | Left recursion is reported as a left-recursion error | partial | `C29_left_recursion_refuted`, `C29_error_never_produced` | Case analysis of the metadata builder. False (finding): the LeftRecursion error is dead code, proved never produced. |
| C30 | Registration reaches every type exactly once and terminates | proved | `C30_terminates`, `C30_visits_once`, `C30_fuel_irrelevant`, `C30_all_reachable`, `C30_language` | TypeModel registration with visited set; closure and counting argument; language equality by induction on derivations. Registration of all productions reachable from the root, and the grammar it yields has the language of the type. |
| C31 | parse() reports grammar errors before touching the input | proved | `C31_metadata_total`, `C31_grammar_errors_first`, `C31_grammar_error_returned` | ProduceModel `parse`.  |
| C32 | Parsing terminates | proved | `C32_parse`, `C32_produce`, `C32_grounded` | TermFacts/ProgressFacts/EndFacts: fuel from the number of remaining tokens and the nesting depth of productive types. Needs, besides acceptance: no empty tuple/struct, no nullable enum variant, every type productive (or grounded). C33 shows the conditions are needed. |
| C33 | Every accepted grammar parses in finite time | partial | `C33_refuted`, `C33_option_refuted`, `C33_unproductive_refuted` | Three concrete accepted grammars, shown to run out of every fuel by induction. False of the code (finding): acceptance alone does not imply termination, for two independent causes. C32 proves termination under conditions excluding both. |
| C34 | Error-free results are correct parses | proved | `C34_produce`, `C34_parse`, `C34_language`, `C34_derives`, `C34_loop_refuted` | SoundFacts: induction on fuel; `parses` relation in ParseSpec. The derivation part is for types without Loop; for Loop it is false (C34_loop_refuted). |
| C35 | Error-free results are correct parses even with tp::Recover | partial | `C35_refuted`, `C35_C40_input_left_partial`, `C35_C40_nullable_tails_partial` | Concrete grammar; invariants for the true part. False of the code (finding). Holds when input is left or all recovery parts are nullable. |
| C36 | Every sentence of an accepted grammar is parsed without error | proved | `C36_parse`, `C36_produce`, `C36_interior`, `C36_follow` | CompleteFacts: induction on the parse derivation with "look-ahead is in FOLLOW". Under regular (CompleteSpec): the conditions named in the property plus non-empty structs/tuples, which the macro enforces. C36_parse is for the root (which may be a Loop) and all remaining tokens; C36_produce for every used type and any continuation that can follow it; C36_interior and C36_follow give two ways to meet the last two conditions (LL(1), complete FOLLOW of Punct): no nullable element strictly inside a sequence, or FOLLOW sets that miss nothing where it matters. |
| C37 | Acceptance alone implies every sentence parses | partial | `C37_refuted`, `C37_trailing_refuted`, `C37_enum_refuted`, `C37_delimiter_refuted`, `C37_loop_refuted` | Five concrete grammars. False of the code: five accepted roots with a sentence that is not parsed, one for each condition of C36. The true version is C36. |
| C38 | Accepted grammars are unambiguous | proved | `C38_part`, `C38_root`, `C38_interior_refuted` | From C36: the parser is a function. Under the conditions of C36. C38_interior_refuted: without the condition on sequences an accepted grammar can be ambiguous. |
| C39 | A failed parse always records an error | proved | `C39_failure_has_error`, `C39_panic_has_error` | Invariant `inv` (InvFacts) on abstract runs.  |
| C40 | A failed parse always records an error even with tp::Recover | partial | `C40_refuted`, `C35_C40_input_left_partial`, `C35_C40_nullable_tails_partial` | As C35. False of the code (finding): Recover<a, "("> on "a" gives no tree and no error. Holds when input is left or all recovery parts are nullable. |
| C41 | Parsing only moves forward and keeps every token | proved | `C41_forward` | `took` for every program. For every program over the parser interface, so for every grammar and outcome. |
| C42 | One token of look-ahead | proved | `C42_one_token` | Abstract run depends on one token beyond the consumed ones (LookFacts).  |
| C43 | Option, Exists and Star never panic | proved | `C43_no_panic`, `C43_empty` | Case analysis.  |
| C44 | Loop never panics and runs to the end of input | proved | `C44_trace`, `C44_over`, `C44_accepted`, `C44_advances`, `C44_parse`, `C44_enum_refuted` | LoopFacts: trace of the loop. No panic, exhausted-or-NoAdvance and the cover of skipped tokens hold for any tables. That accepted grammars never report NoAdvance needs enums without nullable variants (plain_enums); C44_enum_refuted is the finding for the case without that condition. |
| C45 | Split keeps one more element than delimiters | proved | `C45_split_counts` | Induction on the list loop.  |
| C46 | Punct element/delimiter counts | proved | `C46_punct_counts`, `C46_punct_nonempty` | Induction on the list loop.  |
| C47 | Recovered results carry at least one error | proved | `C47_recovered_has_error` | InvFacts.  |
| C48 | Spans of error-free trees are ordered and tight | partial | `C48_spans_partial`, `C48_tight_refuted` | NodeFacts. All but tightness of the start: a node beginning with an absent optional part starts at the end of the previous token (C48_tight_refuted); tight for types that begin with a token. |
| C49 | Spans of recovered trees are never reversed | partial | `C49_refuted`, `C49_in_source`, `C49_ordered_partial` | NodeFacts. False of the code at the end of the input (finding); holds when input is left. |
| C50 | Quoted text is the source text of the node | proved | `C50_quote`, `C50_parse`, `C50_no_crash` | NodeFacts.  |
| C51 | Error positions are valid | proved | `C51_produce`, `C51_starts`, `C51_parse` | InvFacts `err_in`.  |
| C52 | Expecting errors never list the token that is there | proved | `C52_unlisted` | MdFacts, accepted tables.  |
| C53 | Errors accumulate; repeated parses resume | proved | `C53_resume`, `C53_invariant` | ParseFacts.  |
| C54 | Transparent wrappers | proved | `C54_box`, `C54_quote`, `C54_parse`, `C54_exists`, `C54_star` | Definitional transparency lifted to runs.  |
| C55 | Semantic attributes mark exactly the annotated parts | proved | `C55_exact`, `C55_exact_parse`, `C55_kept`, `C55_kept_parse`, `C55_justified`, `C55_justified_parse`, `C55_stable` | MarkFacts, KeepFacts, JustFacts, SemFacts: induction with the set of annotated nodes. C55_exact: iff, for error-free results of types without Recover and without annotations inside Exists/Quote/Parse (whose value drops the annotated node). C55_kept and C55_justified give the two directions for every outcome, every type and any tables; in C55_justified the annotated part is one produced during the run, whether or not the final tree keeps it. C55_stable: recorded tokens never change and marks are never removed. |
| C56 | Each lexer token type gets its own rules | partial | `C56_lexed_types`, `C56_rules_partial`, `C56_tokens_partial`, `C56_refuted`, `C56_semantic_first` | MacroModel `expand`; logos contract as relation from rules to events. False of the code: a semantic-only variant declared before a variant with rules shifts the rules (lexicon.rs 261-269 pushes an empty attribute list without an ident). Proved when semantic-only variants come last; which types are lexer variants is proved always. |
| C57 | Duplicate terminals are rejected | partial | `C57_one_bare`, `C57_literals_partial`, `C57_literals_without_bare`, `C57_refuted` | Induction on terminals. Two terminals without literal are always refused. A literal repeated after a terminal without literal is accepted (refuted); all other repetitions are refused. |
| C58 | Extraction is decided by having no terminal | proved | `C58_extracted`, `C58_reaches_syntax`, `C58_text_partial`, `C58_text_refuted` | As C56. Proved as stated (type level). The stronger claim about the text of the token holds when semantic-only variants come last, and is refuted otherwise because of C56. |
| C59 | Progress on a startable item | proved | `C59_progress` | ProgressFacts.  |
| C60 | Empty symbols do not disturb the input | proved | `C60_quiet` | ProgressFacts.  |
| C61 | derive_lexicon accepts exactly the well-formed declarations | proved | `C61_accepted` | Decision procedure against a declarative well-formedness. The regex engine is a parameter. |
| C62 | One terminal struct per declared terminal | proved | `C62_terminals`, `C62_count` | Induction on variants.  |
| C63 | lex::Map is a total map from token types | proved | `C63_map_new`, `C63_map`, `C63_map_eq` | LexModel maps as arrays. maps as arrays of the lexicon's size |
| C64 | remaining() is the text from the look-ahead to the end | proved | `C64_remaining` | Same refinement, StreamModel `remaining`. state_ok holds of every state reachable from a fresh parser (C08) |
| C65 | Tokens in a tree are real or announced insertions | proved | `C65_tokens`, `C65_success`, `C65_parse` | LeafFacts: weakest-precondition induction on types with `embeds`. for every table, so also for the tables the library computes; which separator stands before which element of a Punct node with missing elements is not recorded in the node, so yields allows any merge there |
| C66 | Separated lists and Recover resynchronize and report everything they skip | proved | `C66_split`, `C66_punct`, `C66_recover`, `C66_fail` | ListFacts: traces of the list loops. Induction over the fuelled loops, connected to produce; holds for any tables. The report at end of input is only claimed for element types without Recover, whose failure may carry no error there. |
| C67 | A failure is reported exactly where parsing stopped | proved | `C67_last`, `C67_parse` | ListFacts `produce_last`. Induction over types on the abstract stream; the Recover exception is in the statement. |
| C68 | What an error lists as expected comes from the grammar | proved | `C68_expected` | ExpectFacts. Induction over types; sets are compared as sets of tokens for terminals and Punct, as tables entries otherwise. |
| C69 | Repetition is greedy; options are taken exactly when they can start | proved | `C69_plus`, `C69_star`, `C69_option`, `C69_exists` | ListFacts. Induction over the item loop; holds for any tables. |
| C70 | Printed production names identify the production | partial | `C70_refuted`, `C70_star_partial`, `C70_punct_partial`, `C70_opt_partial`, `C70_box_partial`, `C70_flat_partial` | DebugFacts. Counterexample by computation; the printed forms by induction over strings. |
| C71 | Every recorded error has a correct message | proved | `C71_messages` | DebugFacts. From C51 and the exact contents of `BTreeSet<String>` insertion. |
| C72 | derive_syntax accepts exactly the well-formed items | proved | `C72_accepts`, `C72_root` | SynMacroModel `expand_syntax` against `good_root`, `good_data`; induction over attribute entries, fields and variants. |
| C73 | Generated code implements the declaration as written | proved | `C73_decl`, `C73_fitting`, `C73_compiles`, `C73_filled` | Zipped lists compared member by member; the marks through C01's set semantics (lexicons of at most 32 variants). C73_filled discharges the hypothesis `filled` of the parsing theorems. |
| C74 | Unknown attributes are refused | partial | `C74_refuted`, `C74_no_effect`, `C74_refused_partial` | False of the code for list entries on members, which have no effect; proved for all other unknown entries. |
| C75 | The emitted item loses exactly its teleparse attributes | proved | `C75_item` | By computation on the item structure and induction over attribute lists. |
| C76 | Slices never cut a character | proved | `C76_parse`, `C76_kept`, `C76_nodes`, `C76_messages`, `C76_remaining`, `C76_boundary`, `C76_slices` | The strict weakest preconditions (InvFacts) record that every slice asked for by `produce` runs between ends of tokens, position 0 and the end of the source; induction over programs relates the two interpreters. Utf8TextFacts: the boundary test finds exactly the starts of the encoded code points, by induction on the code points. |
| C77 | derive(ToSpan) delegates to the first field | proved | `C77_works`, `C77_only` | DeriveModel: the emitted code as data, with a type check (`compiles`) and an evaluator (`exec`); induction over variants. |
| C78 | derive(ToSpan) emits only code that compiles | partial | `C78_refuted`, `C78_partial` | False for empty tuple structs and variants and for empty enums; every other item without first field is refused. |
| C79 | derive(Node) converts from and to its node | partial | `C79_partial`, `C79_refuted`, `C79_only` | Proved for tuple structs; structs with named fields are accepted but never compile. |
| C80 | A derive macro leaves its item defined once | partial | `C80_partial`, `C80_refuted` | Proved for accepted items; every refused item is defined twice. |
| C81 | derive_lexicon accepts exactly the well-formed items and emits what they say | proved | `C81_accepts`, `C81_output` | LexItemModel `expand_lexicon` over MacroModel `expand`; induction over attribute entries. |
| C82 | derive_lexicon keeps what else is written on the enum | partial | `C82_dropped`, `C82_refuted`, `C82_partial` | False: nothing but the teleparse attributes and names has any influence on the output; on refusal the item is kept. |
| C83 | A terminal can be parsed as root | proved | `C83_metadata`, `C83_parse`, `C83_declared` | The one-declaration grammar has no conflict (C25's justification of rejections) and its FOLLOW is the end of input; then C09, C10. With C62 and C81 for the terminals declared in a lexicon. |
| C84 | The text of a grammar error is accurate | proved | `C84_texts` | `gerr_display` on the errors of `meta_build`; the listed items are the intersections of FIRST, FOLLOW (as coded, C21) and carried sets. |
| C85 | A generated parser parses what is written and marks what is listed | proved | `C85_sound`, `C85_complete`, `C85_marks`, `C85_kept` | The items as written are related to the declarations by C73; parse trees and language depend on the types of the members only; the marks by C55, bits being read back as names. |
| C86 | The example parsers of the README parse exactly the arithmetic expressions | proved | `C86_written`, `C86_lists`, `C86_recursive`, `C86_ends` | ReadmeFacts: C34 and C36 give "parsed whole iff in the language of the type"; the language is shown equal to `expression` (ReadmeSpec) by induction on length; C32 for termination. |
| C87 | Parsing takes linear work | proved | `C87_linear`, `C87_grounded` | CostSpec counts the operations of `run`; CostFacts has an amortised bound for each loop (a consumed token pays B); RankFacts bounds the calls made before something is consumed (a rank on types at a look-ahead, uniform because the types of a root are finitely many and a path to the token can be shortened); LinearFacts: induction on fuel. |
| C88 | No error before the input stops being the beginning of a sentence | proved | `C88_no_false_alarm`, `C88_parse`, `C88_same_beginning`, `C88_reads_on`, `C88_end` | EarlyFacts: when the token tk is consumed, what is left of the program either never yields an error starting before its end or always yields some error; the continuation is the same for both inputs. C36 provides an error-free run on a continuation to a sentence; with C42 (runs depend on the tokens consumed and one more) that run also shows that the parser reads on. |
| C89 | The first token no sentence allows is reported | partial | `C89_refuted`, `C89_readme_refuted`, `C89_some_error_partial`, `C89_first_error_partial`, `C89_any_tables_partial`, `C89_parse_partial`, `C89_readme_recursive` | False when a list element fails with several errors. OffendFacts: every combinator, started before tk, either reports an error starting before the end of tk and keeps it, or has parsed a word of its language before tk, or reads through tk and the tokens up to tk begin a word of its language. Lists keep the error if elements fail with a single error (`lone`). For all regular grammars: some error is reported. |
| C90 | Errors are listed in the order of the source | partial | `C90_readme_refuted`, `C90_recover_refuted`, `C90_result_partial`, `C90_calls_partial`, `C90_text_partial`, `C90_readme_partial` | False, see findings. ReportFacts: errors of a result lie between the positions where it started and ended, in order, if Split elements and Recover tails are `clean`; text errors are appended when read, C05 gives their order. The README's recursive parser qualifies. |
| C91 | What a parse puts out is linear in the input | proved | `C91_output`, `C91_linear` | OutputFacts: `pays`, a budget predicate on programs: each operation buys K errors or nodes, and a `grounded` type puts out at most a constant without operations; with C87. |
| C92 | From the text to the tree | proved | `C92_contract`, `C92_scans`, `C92_unique`, `C92_readme` | ScanFacts: induction on the scan. ReadmeText: texts of `sum_text` are tokens of an expression with blanks between (`laid`), no two names in a row, so that the longest matches are these tokens; conversely by C86. |
| C93 | The container of a list does not matter | proved | `C93_plus`, `C93_star`, `C93_early_refuted`, `C93_unfused_refuted` | IterFacts: the container's states simulate the list collected so far; the two refutations show that the condition on containers is needed. |
| C94 | The layout does not matter | proved | `C94_produce`, `C94_parse`, `C94_again` | LayoutFacts: a relation between programs (`relM`) under which answers of the stream may differ in positions that are at the same tokens; `produce` is related to itself; related programs have related runs. |
| C95 | What one token cannot decide is refused | proved | `C95_by_token`, `C95_test`, `C95_test_passes`, `C95_option_option`, `C95_vec_option`, `C95_nev_option`, `C95_option_before` | BookFacts, from the conflict checks (C22, C23) through the correspondence of sentences of types with derivations (LangFacts, MdFacts). `Root::assert_ll1` is modelled in RootModel; the example and its message in the book's chapter on LL(1) are reproduced (`C95_book_ex`). |
| C96 | One lexicon, no left recursion | proved | `C96_one_lexicon`, `C96_limit`, `C96_circle`, `C96_compiles`, `C96_not_left_recursive` | InferFacts: induction on the recursion limit; for `C96_compiles` on the number of declarations not yet asked for. What the compiler resolves is anchored in the sense of C28, so that conflict checks exclude left recursion; steps of `front` are then left edges of the grammar or go to a smaller type with the same id (`Box`, `String`, `Parse`). The examples of the book's chapter on recursion are reproduced (`C96_book_ex`). |
| C97 | A parse ends with its sentence | proved (refuted for `Punct` at the end) | `C97_next`, `C97_reads`, `C97_sound`, `C97_terminator`, `C97_punct_refuted` | NextFacts. CompleteFacts is parametrised by the relation of tokens that may come after a production: FOLLOW for C36; for C97 FOLLOW and the tokens that may come after the whole. As no sentence goes on with the next token, and all parts have sentences, that relation meets the same conditions. |
| C98 | What the answer of Root::parse tells | proved | `C98_sentence`, `C98_none`, `C98_tree`, `C98_clean`, `C98_trailing_refuted`, `C98_errors_refuted` | AnswerFacts, from C36, C99 and the absence of recoveries in clean types (OffendFacts). |
| C99 | A recovered tree is the tree of a repaired input | proved | `C99_repair`, `C99_parse`, `C99_sentence`, `C99_count` | RepairFacts, as C65 (LeafFacts) but typed and with the errors counted: induction on the fuel with [acc], which says that the errors of the insertions form a sublist of the errors returned; loops by induction on their fuel with the elements and delimiters read so far as invariant. |
| C100 | Queries on slices of slices, marks through them | proved | `C100_view`, `C100_spans`, `C100_order`, `C100_write`, `C100_types` | ViewFacts: induction on the chain for a part [m] of [a ++ m ++ b]; the bounds of one query by C11-C13. A mutable slice is modelled by writing the changed part back between the cells before and after it. |
| C101 | What is left out of a tree has its error | proved | `C101_edits`, `C101_parse`, `C101_clean` | EditFacts: as C99, but leaving out is justified: by the last error of a failed part (C67), the first panic of `Split`, `Punct` and `Recover` (its start stays while its end moves), the `UnexpectedTokens` of `Loop`. With `tp::Recover` a failure at the end of the input may carry no error (C35, C40, and `C101_ex_lost`): the exception in the statement. |
| C102 | A loop finds every item | proved | `C102_loop` | The trace of a loop (C44) is followed along the source; an item is parsed as in C97, where the type that ends may be any part of the root (`before_term`). |
| C103 | A list finds its elements in spite of broken ones | proved | `C103_list`, `C103_parse` | BrokenFacts: the loops are run forward along the list (`split_skip`, `punct_skip` for stray tokens; elements as in C33), induction on `broken`. |
| C104 | Errors stay inside their statement | proved | `C104_recover`, `C104_parse`, `C104_divided` | StmtFacts: a part without `Loop` and `Recover`, whose lists end before a D, never consumes the end (`produce_stay`), the loop of `Recover` then runs to it; induction on `segs`. `C104_swallow_ex`: a list inside T that does not end before a D swallows it, two statements become one. |
| C105 | Roots can be used by many threads | proved | `C105_answers`, `C105_once`, `C105_end`, `C105_bound` | ThreadFacts: invariant of the transition system of ThreadModel (a busy cell has exactly one thread building it; a full cell has the metadata of its own root); measure for the bound. Existence of the metadata is C31. |
| C106 | The grammar analysis takes polynomial effort | proved | `C106_first`, `C106_follow`, `C106_register`, `C106_left`, `C106_conflicts`, `C106_jump` | RoundFacts: the weight of the tables (C16) bounds the rounds; relations are never added. VisitFacts: registration and the checks with a counter for calls (`VisitSpec`, shown to be the same functions); the parts of the productions not yet `seen` pay for the calls. The set operations inside a call are not counted. |
| C107 | Lists of statements inside a source keep errors apart | proved | `C107_star`, `C107_plus`, `C107_plus_open`, `C107_divided`, `C107_once` | BlockFacts: induction over the division (`block`), with `recover_stmt` and `recover_open` of C104 for each statement. Same conditions as C104 (`keeps_end`, `apart`): statements that contain statements are out of scope. |
| C108 | A part is parsed the same in every grammar | proved | `C108_part`, `C108_closed`, `C108_unused` | PartFacts: FIRST of a part depends on its declarations only; the computed sets have one representation per set of members (no trailing empty types), so the tables are equal and not only equivalent; then the programs are compared constructor by constructor (`le` in both directions). `C108_needed_ex`: a literal asks for its FOLLOW set, so the condition on what follows cannot be dropped. |
| C109 | Printed sets and tables say what they contain | proved | `C109_equal`, `C109_entries`, `C109_same`, `C109_jump` | PrintFacts. Entries by induction over the types; the printed (reversed) jump table by an invariant of its insertions, C27 and one representation per set of members (PartFacts). Entries are constructors, not text. |
| C110 | Adding and moving variants keeps what parsed | proved | `C110_language`, `C110_parse`, `C110_marks` | ExtendFacts: C34 gives the tree of the old grammar, induction over it the tree of the new one (`renum`), C36 that the new parser returns this one; the marks by C55, whose annotated parts are compared by induction over the tree. Needs the conditions of these (no `Recover`, `regular` for the new grammar). |
| C111 | How types are written does not matter | proved | `C111_parse`, `C111_sym` | RefactorFacts: as C110, with a relation between types that unfolding keeps (a bisimulation) in place of the new numbers. |
| C112 | Order and numbers of declarations do not matter | proved | `C112_registered`, `C112_verdict`, `C112_parse`, `C112_program` | RenameTableFacts: derivations map both ways, so the tables have the same members; the checks and the predictive table are compared step by step. RenameProduceFacts: the `produce` functions of both sides make the same calls with renamed tokens (a relation on programs), RenameRunFacts: such programs run alike. |
| C113 | Texts that are no literal do not matter | proved | `C113_tables`, `C113_parse`, `C113_again` | AlikeFacts: a derivation stays one when a token is replaced by one alike, so the tables (exact, C17 ff.) do not tell them apart; LayoutFacts (shared with C94): the two runs make the same calls, with tokens alike. |
| C114 | How literals are spelled does not matter | proved | `C114_verdict`, `C114_tables`, `C114_parse`, `C114_again` | RespellFacts: FIRST and FOLLOW derivations and conflicts map from one grammar to the other and back along a relation of productions and tokens, so the verdict and the tables agree. LayoutFacts: `produce` on both sides makes calls that correspond for any relation of tokens and sets that the tests of the parser respect (also used for C94 and C113). |
| C115 | Parts of an accepted grammar are accepted | proved | `C115_accepted`, `C115_tables`, `C115_parse` | FewerFacts: nullability, first and following tokens and with them every conflict of the smaller grammar are ones of the larger grammar. |
| C116 | Mending once is enough | proved | `C116_again` | MendFacts: the tree of a repaired input (C99) is, without positions, a parse tree of every source with the repaired tokens (induction on the tree), which is the one found (C36). |
| C117 | What parses without errors parses the same everywhere | proved | `C117_same`, `C117_inside`, `C117_alone`, `C117_each`, `C117_list` | CleanFacts: two runs of `produce` with the same FIRST sets and jump tables, equal until the first error; FOLLOW is asked only on the way to an error or by a trailing separator (`produce_free`). EachFacts: the tables of the shared part agree (C108), `Vec<T>` as calls for `T` by C36. `C117_punct_ex` shows that `Punct` has to be excluded. |
| C118 | Separated lists, Recover, Exists, Loop and text nodes are abbreviations | proved | `C118_tables`, `C118_accepted`, `C118_split`, `C118_unsplit`, `C118_recover`, `C118_unrecover`, `C118_loop`, `C118_unloop`, `C118_plus`, `C118_unplus` | SugarTableFacts: same productions, so the same registration. SugarFacts, SugarRecFacts, SugarLoopFacts, SugarPlusFacts: the loops compared step by step in states that agree but for look-ahead already read, with C117 for the parts. `C118_split_ex` also shows that with errors they differ (a `Split` skips to its next element). |
| C119 | Punct is a recursive struct | proved | `C119_nest`, `C119_unnest`, `C119_trailing` | PunctFacts: the rounds of the outer loop of `Punct` and the levels of the struct compared one by one (induction on the rounds, and on the fuel of the nested run), with C117 for the parts; FIRST of the two look-aheads agrees since neither T nor D is empty. `C119_ex` also has the case in which only the `Punct` reports an error. |
