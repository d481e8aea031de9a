{"id": "C01", "title": "Token-type bit set behaves as a mathematical set", "statement": "For a derived lexicon with at most 32 variants, `lex::Set` is a set of token types: after any sequence of insert/remove/union, `contains(t)` is true exactly for the types that a mathematical set under the same operations would hold, `contains_all` is inclusion, `is_empty` is emptiness, and equal sets have equal bits.", "quantifier": "all lexicon sizes 1..32, all token types, all sets and operation sequences", "why_tests_cant": "unit tests try a handful of variants of one 7-variant enum; the claim is about every width and every operation history", "anchors": ["packages/teleparse/src/lex/set.rs: Set::{insert,remove,contains,contains_all,is_empty,union}", "packages/macros/src/lexicon.rs: repr_ty, to_bit"]}
{"id": "C02", "title": "Set iteration lists the members once, in order, and stays exhausted", "statement": "Iterating a `lex::Set` yields exactly its members, in declaration order, each once, then None forever.", "quantifier": "all lexicon sizes up to 32, all sets, any number of further next() calls", "why_tests_cant": "tests iterate five fixed sets", "anchors": ["packages/teleparse/src/lex/set.rs: Iter::next", "packages/macros/src/lexicon.rs: Lexicon::next, first"]}
{"id": "C03", "title": "Bit sets stay correct for the advertised maximum of 128 variants", "statement": "`derive_lexicon` accepts up to 128 variants and picks u64/u128 storage above 32; the set operations must still be correct there (distinct token types never alias).", "quantifier": "all lexicon sizes 33..128 and all pairs of token types", "why_tests_cant": "no test has more than 32 variants and the failure is size dependent", "anchors": ["packages/macros/src/lexicon.rs: repr_ty lines 48-59, to_bit line 307", "packages/teleparse/src/lex/set.rs"]}
{"id": "C04", "title": "Span::get returns exactly the spanned text", "statement": "`Span::get` returns the bytes lo..min(hi,len) of the input, returns the empty string for empty or reversed spans, and can only panic when the start of a non-empty span is beyond the end of the input (for ASCII-boundary positions).", "quantifier": "all spans and all inputs", "why_tests_cant": "tests use one 3 byte string", "anchors": ["packages/teleparse/src/lex/span.rs: Span::get", "packages/teleparse/src/lex/token.rs: Token::src"]}
{"id": "C05", "title": "The lexer wrapper loses and invents nothing", "statement": "Successive `Lexer::next` calls return every valid token found by the underlying tokenizer exactly once and in order; each call's invalid span starts at the first and ends at the last unrecognised piece since the previous token, is absent iff there was none, and after the end of input every call returns (None, None).", "quantifier": "all token/error event sequences of the underlying tokenizer", "why_tests_cant": "tests check five inputs; interleavings of errors, ignored text and tokens are unbounded", "anchors": ["packages/teleparse/src/lex/lexer.rs: LogosLexerWrapper::next, next_internal"]}
{"id": "C06", "title": "Lexer output is positionally ordered and disjoint", "statement": "Given a tokenizer that reports non-empty increasing spans, the invalid spans and token spans returned by the lexer are in increasing order, pairwise disjoint, non-empty and inside the source.", "quantifier": "all event sequences meeting the tokenizer contract", "why_tests_cant": "quantifies over all sources", "anchors": ["packages/teleparse/src/lex/lexer.rs: LogosLexerWrapper::next"]}
{"id": "C07", "title": "The token stream is conserved by every history of stream calls", "statement": "For any history of peek/consume/parse_token/parse_token_lit calls on a `Parser`: the consumed tokens, followed by the look-ahead, followed by what the lexer will still give, always equals the original non-extracted token sequence; comment-like (extracted) tokens are recorded in order and never reach the syntax; unrecognised text is recorded once, in `invalid_source` and as an UnexpectedCharacters error each.", "quantifier": "all token sequences and all finite histories of stream API calls", "why_tests_cant": "a history quantifier cannot be enumerated", "anchors": ["packages/teleparse/src/parser/parser_impl.rs: peek_token, consume_token, try_read_next_token, parse_token, parse_token_lit", "packages/teleparse/src/parser/info.rs: Info"]}
{"id": "C08", "title": "Peek is idempotent and consume returns what peek showed", "statement": "peek_token changes no observable result of later calls, repeated peeks agree, and consume_token returns exactly what peek_token returned and advances by that one token.", "quantifier": "all parser states", "why_tests_cant": "depends on all look-ahead/extraction states", "anchors": ["packages/teleparse/src/parser/parser_impl.rs: peek_token, consume_token, current_span"]}
{"id": "C09", "title": "parse_token consumes only on match", "statement": "parse_token(ty) succeeds iff the next token has type ty, consumes exactly it, and otherwise consumes nothing and reports exactly one `Expecting {ty}` error located at the look-ahead (or end of input).", "quantifier": "all parser states and types", "why_tests_cant": "state space unbounded", "anchors": ["packages/teleparse/src/parser/parser_impl.rs: parse_token"]}
{"id": "C10", "title": "parse_token_lit matches or inserts as documented", "statement": "parse_token_lit succeeds and consumes iff type and literal match; otherwise consumes nothing, and returns a zero-length recovered token with one error iff the look-ahead (or end of input) is in the follow set given, else panics with one error.", "quantifier": "all parser states, types, literals, follow sets", "why_tests_cant": "state space unbounded", "anchors": ["packages/teleparse/src/parser/parser_impl.rs: parse_token_lit"]}
{"id": "C11", "title": "TokenVec::inside returns exactly the tokens inside the span", "statement": "On position-ordered disjoint tokens, inside/inside_mut/inside_bounds select exactly the tokens whose span lies within the query span, in order; at_span returns the token iff exactly one token lies inside.", "quantifier": "all token vectors built in order, all query spans", "why_tests_cant": "binary search correctness over all sizes", "anchors": ["packages/teleparse/src/lex/vec.rs: inside_bounds, at_span, search_lo, search_hi"]}
{"id": "C12", "title": "TokenVec::overlap returns exactly the overlapping tokens", "statement": "On position-ordered disjoint tokens, overlap/overlap_bounds select exactly the tokens whose intersection with the query span is non-empty.", "quantifier": "all ordered token vectors, all spans", "why_tests_cant": "binary search boundary conditions over all sizes and positions", "anchors": ["packages/teleparse/src/lex/vec.rs: overlap_bounds"]}
{"id": "C13", "title": "ends_at_matches / begins_at_matches return the maximal run", "statement": "They return None iff no token ends (begins) at the position or that token fails the predicate; otherwise the returned range is the longest contiguous run that ends (begins) there with all tokens satisfying the predicate.", "quantifier": "all ordered token vectors, positions and predicates", "why_tests_cant": "all predicates", "anchors": ["packages/teleparse/src/lex/vec.rs: ends_at_matches_bounds, begins_at_matches_bounds"]}
{"id": "C14", "title": "apply_semantic touches exactly the tokens inside the span", "statement": "apply_semantic(span,S) adds S to the semantic set of every recorded token inside span, and changes no other token, no span, no token type, no semantic already present; repeated application is idempotent and order of applications is irrelevant.", "quantifier": "all recorded token vectors, spans and semantic sets, all application sequences", "why_tests_cant": "histories", "anchors": ["packages/teleparse/src/parser/parser_impl.rs: apply_semantic", "packages/teleparse/src/lex/vec.rs: inside_mut, apply_semantic"]}
{"id": "C15", "title": "Terminal set operations are exact", "statement": "TerminalSet/FirstSet/FollowSet/LitSet operations denote set operations on concrete tokens (type, text) plus the empty symbol: insert/union/clear give the set union/empty set, the returned changed flag is true iff the denoted set grew, `intersects` holds iff a common token (or, where included, the empty symbol) exists, and intersection lists it.", "quantifier": "all terminal sets over all lexicons and all literals", "why_tests_cant": "infinite universe of texts", "anchors": ["packages/teleparse/src/syntax/lit_set.rs", "packages/teleparse/src/syntax/term_set.rs", "packages/teleparse/src/syntax/first/set.rs", "packages/teleparse/src/syntax/follow/set.rs"]}
{"id": "C16", "title": "FIRST construction terminates", "statement": "Building the FIRST table terminates for every grammar, including recursive and ill-formed ones.", "quantifier": "all finite production sets", "why_tests_cant": "fixpoint iteration count is unbounded over grammars", "anchors": ["packages/teleparse/src/syntax/first/builder.rs: FirstBuilder::build, process_rels, process_rel"]}
{"id": "C17", "title": "FIRST table equals derivability", "statement": "For every grammar: token t is in FIRST(X) of the built table iff X derives a sentential form starting with t, and FIRST(X) contains epsilon iff X derives the empty string.", "quantifier": "all finite grammars, all symbols, all tokens", "why_tests_cant": "tests check two textbook grammars", "anchors": ["packages/teleparse/src/syntax/first/builder.rs", "packages/teleparse/src/syntax/first/mod.rs: First::get"]}
{"id": "C18", "title": "FIRST and FOLLOW do not depend on registration or TypeId order", "statement": "The meaning of the built FIRST and FOLLOW tables and the accept/reject decision do not depend on the order in which productions are registered or iterated (TypeId order is unspecified by Rust).", "quantifier": "all permutations of all production sets", "why_tests_cant": "TypeId order is fixed in any one build", "anchors": ["packages/teleparse/src/syntax/metadata.rs: MetadataBuilder::build (for (t, prod) in &prods)", "packages/teleparse/src/syntax/first/builder.rs", "packages/teleparse/src/syntax/follow/builder.rs"]}
{"id": "C19", "title": "FOLLOW construction terminates", "statement": "Building the FOLLOW table terminates for every grammar.", "quantifier": "all finite production sets", "why_tests_cant": "fixpoint", "anchors": ["packages/teleparse/src/syntax/follow/builder.rs: FollowBuilder::build"]}
{"id": "C20", "title": "FOLLOW table contains only real followers", "statement": "If token t (or end of input) is in FOLLOW(X) of the built table, then some sentential form derived from the root has X immediately followed by t (or X at its end).", "quantifier": "all finite grammars", "why_tests_cant": "all grammars", "anchors": ["packages/teleparse/src/syntax/follow/builder.rs"]}
{"id": "C21", "title": "FOLLOW table contains all real followers", "statement": "If some sentential form derived from the root has X immediately followed by t (or X at its end), then t (or end of input) is in FOLLOW(X) of the built table.", "quantifier": "all finite grammars", "why_tests_cant": "tests check one grammar without nullable middle symbols", "anchors": ["packages/teleparse/src/syntax/follow/builder.rs: build_sequence lines 58-73"]}
{"id": "C22", "title": "FIRST/FIRST conflicts are reported exactly", "statement": "If the grammar is rejected with a FIRST/FIRST conflict, some reachable choice has two variants whose FIRST sets meet (including both nullable): the two variants named do conflict, the first named being the earliest that conflicts with the second, and the listed items are exactly what they have in common. Conversely any such choice makes the grammar rejected.", "quantifier": "all grammars", "why_tests_cant": "all grammars", "anchors": ["packages/teleparse/src/syntax/metadata.rs: check_conflicts Union branch"]}
{"id": "C23", "title": "Sequence FIRST/FOLLOW conflicts are reported exactly", "statement": "A sequence is rejected with a sequence conflict iff some nullable element Yi and a later Yj with only nullable elements between them can start with the same token.", "quantifier": "all grammars", "why_tests_cant": "all grammars", "anchors": ["packages/teleparse/src/syntax/metadata.rs: check_conflicts Sequence branch"]}
{"id": "C24", "title": "Sequence conflict messages name an element that takes part", "statement": "The element named first in a FirstFollowSeqConflict error is nullable and takes part in the conflict with the element named second.", "quantifier": "all rejected grammars", "why_tests_cant": "all grammars", "anchors": ["packages/teleparse/src/syntax/metadata.rs lines 239-271: variable `cur`"]}
{"id": "C25", "title": "Every rejection is justified", "statement": "If building metadata reports a conflict, the grammar is really not LL(1) in the textbook sense (choice-wise FIRST/FIRST or FIRST/FOLLOW conflict with FIRST/FOLLOW defined by derivations).", "quantifier": "all grammars", "why_tests_cant": "no false positives over all grammars", "anchors": ["packages/teleparse/src/syntax/metadata.rs: check_conflicts, check_self_first_follow_conflict"]}
{"id": "C26", "title": "Every accepted grammar is LL(1)", "statement": "If metadata is built without error, the grammar is LL(1) in the textbook sense.", "quantifier": "all grammars", "why_tests_cant": "no false negatives over all grammars", "anchors": ["packages/teleparse/src/syntax/metadata.rs", "packages/teleparse/src/syntax/follow/builder.rs"]}
{"id": "C27", "title": "The predictive table selects the right variant", "statement": "For an accepted grammar and every choice type, looking up a token gives variant i iff the token can start variant i, and gives nothing iff it can start none; looking up end of input gives the nullable variant if any.", "quantifier": "all accepted grammars, choices, tokens", "why_tests_cant": "all grammars and texts", "anchors": ["packages/teleparse/src/syntax/jump.rs: Jump::look_up, JumpTable::look_up_token", "packages/teleparse/src/syntax/metadata.rs: build_jump"]}
{"id": "C28", "title": "Accepted grammars are not left recursive", "statement": "For grammars whose lexicon inference is well-founded (which the Rust compiler enforces), metadata accepted implies no symbol can derive a form starting with itself.", "quantifier": "all grammars", "why_tests_cant": "all grammars", "anchors": ["packages/teleparse/src/syntax/metadata.rs: check_left_recursive, check_conflicts"]}
{"id": "C29", "title": "Left recursion is reported as a left-recursion error", "statement": "A left recursive grammar is rejected with GrammarError::LeftRecursion.", "quantifier": "all left recursive grammars", "why_tests_cant": "all grammars", "anchors": ["packages/teleparse/src/syntax/metadata.rs: check_left_recursive lines 91-190"]}
{"id": "C30", "title": "Registration reaches every type exactly once and terminates", "statement": "Registering a root visits every production reachable from it exactly once, terminates for recursive types, and the productions recorded are those of the declared types.", "quantifier": "all finite sets of syntax declarations", "why_tests_cant": "recursive type graphs of any shape", "anchors": ["packages/teleparse/src/syntax/ast.rs: register_sequence!, register_union!", "packages/teleparse/src/syntax/metadata.rs: visit, add_sequence, add_union", "packages/teleparse/src/tp_impl/{option,iter,punct,split,tuple,boxed}.rs: Production impls"]}
{"id": "C31", "title": "parse() reports grammar errors before touching the input", "statement": "Parser::parse returns Err iff the metadata of the root is an error, and in that case consumes no token and records no error; otherwise it returns Ok.", "quantifier": "all roots and parser states", "why_tests_cant": "all grammars", "anchors": ["packages/teleparse/src/parser/parser_impl.rs: parse, parse_with_meta", "packages/macros/src/root.rs"]}
{"id": "C32", "title": "Parsing terminates", "statement": "For every accepted grammar in which every type is productive and no enum variant is nullable, parsing any input with any root terminates.", "quantifier": "all accepted grammars, all inputs", "why_tests_cant": "halting over all inputs and grammars", "anchors": ["packages/teleparse/src/tp_impl/*.rs: produce", "packages/macros/src/syntax.rs: generated produce"]}
{"id": "C33", "title": "Every accepted grammar parses in finite time", "statement": "Acceptance of the grammar alone guarantees that parsing terminates on every input.", "quantifier": "all accepted grammars, all inputs", "why_tests_cant": "halting", "anchors": ["packages/teleparse/src/syntax/metadata.rs", "packages/teleparse/src/tp_impl/recover.rs", "packages/teleparse/src/tp_impl/iter.rs: ProduceIter"]}
{"id": "C34", "title": "Error-free results are correct parses", "statement": "If a syntax tree (built without tp::Recover) is produced without error, the tree is the parse tree of its type for exactly the tokens consumed, in order; those tokens derive from the declared grammar (types without tp::Loop, which also accepts an empty input its production does not derive).", "quantifier": "all grammars without Recover, all inputs", "why_tests_cant": "all inputs", "anchors": ["packages/teleparse/src/tp_impl/*.rs", "packages/macros/src/syntax.rs"]}
{"id": "C35", "title": "Error-free results are correct parses even with tp::Recover", "statement": "If a tree is returned and no error was recorded, the consumed tokens derive from the grammar, also when tp::Recover is used.", "quantifier": "all grammars, all inputs", "why_tests_cant": "all inputs", "anchors": ["packages/teleparse/src/tp_impl/recover.rs: produce"]}
{"id": "C36", "title": "Every sentence of an accepted grammar is parsed without error", "statement": "For accepted roots whose grammar is LL(1) (C26; e.g. no nullable element strictly inside a sequence), with no nullable enum variant, no nullable Split delimiter, no Loop below the root and complete FOLLOW sets of the Punct types, every token sequence derivable from the root is parsed successfully without errors into its parse tree, and exactly that sequence is consumed.", "quantifier": "all such grammars, all sentences", "why_tests_cant": "all sentences", "anchors": ["packages/teleparse/src/tp_impl/*.rs", "packages/macros/src/syntax.rs", "packages/teleparse/src/syntax/metadata.rs"]}
{"id": "C37", "title": "Acceptance alone implies every sentence parses", "statement": "If the grammar is accepted, every sentence parses without error.", "quantifier": "all accepted grammars, all sentences", "why_tests_cant": "all sentences", "anchors": ["packages/teleparse/src/syntax/follow/builder.rs", "packages/macros/src/syntax.rs: expand_enum produce", "packages/teleparse/src/tp_impl/split.rs"]}
{"id": "C38", "title": "Accepted grammars are unambiguous", "statement": "Under the conditions of C36 a token sequence has at most one parse tree.", "quantifier": "all such grammars, all sentences", "why_tests_cant": "all sentences", "anchors": ["packages/teleparse/src/syntax/metadata.rs"]}
{"id": "C39", "title": "A failed parse always records an error", "statement": "If parse returns Ok(None), at least one error has been recorded (trees without tp::Recover).", "quantifier": "all grammars without Recover, all inputs", "why_tests_cant": "all inputs", "anchors": ["packages/teleparse/src/parser/parser_impl.rs: parse_with_meta", "packages/teleparse/src/tp_impl/*.rs"]}
{"id": "C40", "title": "A failed parse always records an error even with tp::Recover", "statement": "If parse returns Ok(None), at least one error has been recorded, for all trees.", "quantifier": "all grammars, all inputs", "why_tests_cant": "all inputs", "anchors": ["packages/teleparse/src/tp_impl/recover.rs lines 56-119"]}
{"id": "C41", "title": "Parsing only moves forward and keeps every token", "statement": "Producing any tree, in success, recovery or panic, only appends to the recorded tokens a contiguous prefix of the remaining token stream, never reorders, drops, duplicates or un-consumes tokens, and only appends to the invalid/extracted lists.", "quantifier": "all grammars (including rejected), all inputs, all outcomes", "why_tests_cant": "all inputs", "anchors": ["packages/teleparse/src/tp_impl/*.rs", "packages/teleparse/src/parser/parser_impl.rs"]}
{"id": "C42", "title": "One token of look-ahead", "statement": "The outcome and the tokens consumed depend only on the consumed tokens and the single next token; the parser never reads more than one token past what it consumes.", "quantifier": "all grammars, all pairs of inputs agreeing on that prefix", "why_tests_cant": "pairs of inputs", "anchors": ["packages/teleparse/src/parser/parser_impl.rs: peek_token", "packages/teleparse/src/tp_impl/*.rs"]}
{"id": "C43", "title": "Option, Exists and Star never panic", "statement": "Producing tp::Option, tp::Exists, tp::Vec/Star never results in a panic; they return the empty value without consuming when the next token cannot start the item (or at end of input).", "quantifier": "all items, all parser states", "why_tests_cant": "all states", "anchors": ["packages/teleparse/src/tp_impl/option.rs: produce_option", "packages/teleparse/src/tp_impl/iter.rs: Star::produce"]}
{"id": "C44", "title": "Loop never panics and runs to the end of input", "statement": "Producing tp::Loop never panics and, when it returns, either the input is exhausted or a NoAdvance error was recorded; for accepted grammars the latter does not happen; skipped tokens are always covered by an UnexpectedTokens error.", "quantifier": "all items, all inputs", "why_tests_cant": "all inputs", "anchors": ["packages/teleparse/src/tp_impl/iter.rs: Loop::produce"]}
{"id": "C45", "title": "Split keeps one more element than delimiters", "statement": "Every Split produced, even under recovery, has exactly one more element than delimiters.", "quantifier": "all items, delimiters, inputs, recoveries", "why_tests_cant": "recovery paths", "anchors": ["packages/teleparse/src/tp_impl/split.rs: produce"]}
{"id": "C46", "title": "Punct element/delimiter counts", "statement": "Every error-free Punct has n elements and n-1 or n delimiters (n>0); under recovery it still has at least one element.", "quantifier": "all items, delimiters, inputs", "why_tests_cant": "recovery paths", "anchors": ["packages/teleparse/src/tp_impl/punct.rs: produce"]}
{"id": "C47", "title": "Recovered results carry at least one error", "statement": "A Recovered result always has at least one error, so parse() returning a tree without new errors means a clean parse by the parser's own accounting.", "quantifier": "all grammars without Recover, all inputs", "why_tests_cant": "all outcomes", "anchors": ["packages/teleparse/src/syntax/error.rs: From<(T,Vec<Error>)>", "packages/teleparse/src/tp_impl/*.rs"]}
{"id": "C48", "title": "Spans of error-free trees are ordered and tight", "statement": "In an error-free tree every node has lo <= hi, lies within the source, and spans exactly from its first to its last token (a node without tokens has an empty span at the end of the previously consumed token); siblings are in order and do not overlap.", "quantifier": "all trees without Recover, all inputs", "why_tests_cant": "all inputs", "anchors": ["packages/teleparse/src/lex/span.rs: ToSpan", "packages/macros/src/to_span.rs", "packages/macros/src/syntax.rs: ToSpan impls", "packages/teleparse/src/tp_impl/*.rs"]}
{"id": "C49", "title": "Spans of recovered trees are never reversed", "statement": "Every node of every returned tree, also after error recovery, has lo <= hi.", "quantifier": "all trees, all inputs", "why_tests_cant": "recovery paths", "anchors": ["packages/teleparse/src/parser/parser_impl.rs: parse_token_lit (current_span at EOF vs empty_span)", "packages/teleparse/src/tp_impl/option.rs"]}
{"id": "C50", "title": "Quoted text is the source text of the node", "statement": "tp::String/tp::Quote (and the input of tp::Parse) hold exactly the source text of the node's span and producing them never makes the program panic on slicing.", "quantifier": "all inner types, all inputs, all recoveries", "why_tests_cant": "all inputs", "anchors": ["packages/teleparse/src/tp_impl/string.rs: Quote::produce, Parse::produce"]}
{"id": "C51", "title": "Error positions are valid", "statement": "Every recorded error has a span with lo <= hi inside the source.", "quantifier": "all grammars, all inputs", "why_tests_cant": "all inputs", "anchors": ["packages/teleparse/src/syntax/error.rs", "packages/teleparse/src/parser/parser_impl.rs: expecting, unexpected_eof", "packages/teleparse/src/tp_impl/{iter,split,punct,recover}.rs"]}
{"id": "C52", "title": "Expecting errors never list the token that is there", "statement": "For every Expecting(set) error, the token at the start of the error span is not a member of set.", "quantifier": "all accepted grammars, all inputs", "why_tests_cant": "all inputs", "anchors": ["packages/teleparse/src/parser/parser_impl.rs: expecting", "packages/macros/src/syntax.rs: expand_enum", "packages/teleparse/src/tp_impl/{split,punct,recover}.rs"]}
{"id": "C53", "title": "Errors accumulate; repeated parses resume", "statement": "parse() only appends to info.errors, and a second parse() on the same Parser starts at the first unconsumed token of the first.", "quantifier": "all roots, all histories of parse calls", "why_tests_cant": "histories", "anchors": ["packages/teleparse/src/parser/parser_impl.rs: parse_with_meta"]}
{"id": "C54", "title": "Transparent wrappers", "statement": "Box<T>, tp::String<T>, tp::Parse<_,T> consume the same tokens and report the same errors and outcome as T; tp::Exists<T> as tp::Option<T>, storing whether it was present; tp::Vec<T> as tp::Option<tp::Nev<T>>.", "quantifier": "all inner types, all parser states", "why_tests_cant": "all states", "anchors": ["packages/teleparse/src/tp_impl/boxed.rs", "packages/teleparse/src/tp_impl/string.rs", "packages/teleparse/src/tp_impl/option.rs", "packages/teleparse/src/tp_impl/iter.rs: Star"]}
{"id": "C55", "title": "Semantic attributes mark exactly the annotated parts", "statement": "After a parse, a recorded token carries a semantic type iff it lies inside the span of a produced field or variant annotated with it; parsing never changes token spans or types.", "quantifier": "all annotated trees, all inputs", "why_tests_cant": "all inputs", "anchors": ["packages/macros/src/syntax.rs: apply_semantic_impl", "packages/teleparse/src/parser/parser_impl.rs: apply_semantic"]}
{"id": "C56", "title": "Each lexer token type gets its own rules", "statement": "derive_lexicon attaches to each token type's lexer variant exactly the regexes/literals declared on it; token types declared without rule or literal never come out of the lexer.", "quantifier": "all derive_lexicon enums", "why_tests_cant": "all declarations", "anchors": ["packages/macros/src/lexicon.rs lines 64-298: lex_variant_idents / lex_variant_derived_attrs"]}
{"id": "C57", "title": "Duplicate terminals are rejected", "statement": "derive_lexicon rejects a variant that declares the same literal twice or two terminals without literal.", "quantifier": "all derive_lexicon variants", "why_tests_cant": "all declarations", "anchors": ["packages/macros/src/lexicon.rs lines 120-204: infer_literals, infer_literal_set"]}
{"id": "C58", "title": "Extraction is decided by having no terminal", "statement": "A token type is withheld from the syntax (extracted) iff it declares no terminal, so every token that reaches the syntax belongs to a type that some terminal can match.", "quantifier": "all derive_lexicon enums", "why_tests_cant": "all declarations", "anchors": ["packages/macros/src/lexicon.rs lines 112-115, 320-325"]}
{"id": "C59", "title": "Progress on a startable item", "statement": "If the next token can start T (is in FIRST(T)), producing T consumes at least one token whatever the outcome (accepted grammars, no nullable enum variant).", "quantifier": "all such grammars and types, all inputs", "why_tests_cant": "all inputs", "anchors": ["packages/teleparse/src/tp_impl/*.rs", "packages/macros/src/syntax.rs"]}
{"id": "C60", "title": "Empty symbols do not disturb the input", "statement": "If T is nullable and the next token cannot start T (or input ended), producing T succeeds without consuming anything (accepted grammars, no nullable enum variant).", "quantifier": "all such grammars and types, all inputs", "why_tests_cant": "all inputs", "anchors": ["packages/teleparse/src/tp_impl/*.rs", "packages/macros/src/syntax.rs"]}
{"id": "C61", "title": "derive_lexicon accepts exactly the well-formed declarations", "statement": "An enum is accepted iff it has 1 to 128 unit variants, valid ignore regexes, and on every variant: at most one regex and one terminal attribute, no malformed or empty-literal terminal, at most one terminal without literal, no literal repeated before a terminal without literal, no regex made redundant by literals, and every regex valid, not matching the empty string and finding the whole of every literal.", "quantifier": "all derive_lexicon enums, all regex engines", "why_tests_cant": "all declarations", "anchors": ["packages/macros/src/lexicon.rs lines 42-270, 384-392", "packages/macros/src/prelude.rs lines 145-160"]}
{"id": "C62", "title": "One terminal struct per declared terminal", "statement": "The terminal structs generated are exactly the declared terminals, each with the token type it was declared on and its literal.", "quantifier": "all accepted derive_lexicon enums", "why_tests_cant": "all declarations", "anchors": ["packages/macros/src/lexicon.rs lines 124-204, 395-476"]}
{"id": "C63", "title": "lex::Map is a total map from token types", "statement": "A new map holds the default for every token type; reading back a type gives the last value written to it and writing leaves the other types alone; iteration visits every token type once, in order of id, with its own item; two maps are equal iff they agree on every type.", "quantifier": "all lexicon sizes, all item types, all maps", "why_tests_cant": "all sizes and contents", "anchors": ["packages/teleparse/src/lex/map.rs lines 11-13, 37-79", "packages/macros/src/lexicon.rs line 303"]}
{"id": "C64", "title": "remaining() is the text from the look-ahead to the end", "statement": "remaining() never panics, returns the suffix of the source that begins with the text of the next token (the empty string at end of input), and consumes nothing.", "quantifier": "all sources, all tokenizations, all reachable parser states", "why_tests_cant": "all states", "anchors": ["packages/teleparse/src/parser/parser_impl.rs lines 224-235"]}
{"id": "C65", "title": "Tokens in a tree are real or announced insertions", "statement": "In every tree that parsing returns, also after error recovery, the tokens kept in the tree are tokens of the input consumed for this tree, in source order, each used at most once, or tokens inserted for a missing literal; an inserted token is empty, lies at the end of the token before it (end of source at end of input), is only made when the token that is there may follow the literal, and its absence is reported as an expecting-error at that token.", "quantifier": "all syntax types, all tables, all inputs and tokenizations, all parser states", "why_tests_cant": "recovery paths of nested types combine in unboundedly many ways; duplicated or reordered tokens only show for particular inputs", "anchors": ["packages/teleparse/src/parser/parser_impl.rs parse_token, parse_token_lit", "packages/teleparse/src/tp_impl/punct.rs", "packages/teleparse/src/tp_impl/split.rs", "packages/teleparse/src/tp_impl/recover.rs", "packages/teleparse/src/tp_impl/iter.rs"]}
{"id": "C66", "title": "Separated lists and Recover resynchronize and report everything they skip", "statement": "Producing a Split or Punct whose first element succeeds follows the list grammar step by step: while a separator can start, it is consumed and an element is looked for; tokens skipped before the next separator or follow token are neither, and each lies inside a reported error; an element given up is reported; Punct keeps every separator and allows a trailing one only before a follow token or end of input, Split drops the separator of a missing element. Recover tries its head once, reports it when missing, and then scans to the tail, reporting everything skipped; it has a value exactly if the tail is found. The lists fail only when their first element fails.", "quantifier": "all element and separator types, all tables, all inputs and tokenizations, all parser states", "why_tests_cant": "which tokens are skipped depends on arbitrary nested element types and tables; loops of unbounded length", "anchors": ["packages/teleparse/src/tp_impl/split.rs lines 79-178", "packages/teleparse/src/tp_impl/punct.rs lines 94-222", "packages/teleparse/src/tp_impl/recover.rs lines 34-120"]}
{"id": "C67", "title": "A failure is reported exactly where parsing stopped", "statement": "When produce fails, its last error has exactly the span of the token parsing stopped at (the empty span at the end of the source at end of input), unless a Recover ran to the end of the input. A parse without Recover that returns no tree ends its error list with an error at that place.", "quantifier": "all syntax types, all tables, all inputs and tokenizations, all parser states", "why_tests_cant": "every combination of nested types and failure points", "anchors": ["packages/teleparse/src/tp_impl/split.rs", "packages/teleparse/src/tp_impl/punct.rs", "packages/teleparse/src/tp_impl/iter.rs", "packages/teleparse/src/tp_impl/tuple.rs", "packages/teleparse/src/tp_impl/recover.rs", "packages/teleparse/src/parser/parser_impl.rs expecting"]}
{"id": "C68", "title": "What an error lists as expected comes from the grammar", "statement": "Every expecting-error carries exactly the set of one terminal, the FIRST set of an enum, of a Split element or of a part of a Recover, or the union of FIRST of a Punct element and FOLLOW of the list, for a type that occurs in the parsed type.", "quantifier": "all syntax types, all tables, all inputs, all parser states", "why_tests_cant": "all grammars and all failure points", "anchors": ["packages/teleparse/src/tp_impl/string.rs", "packages/teleparse/src/tp_impl/punct.rs", "packages/teleparse/src/tp_impl/split.rs", "packages/teleparse/src/tp_impl/recover.rs", "packages/teleparse/src/parser/parser_impl.rs lines 103-160", "packages/macros/src/syntax.rs lines 323-349"]}
{"id": "C69", "title": "Repetition is greedy; options are taken exactly when they can start", "statement": "Plus takes a first item and then items as long as the look-ahead is a token in its FIRST set, stopping early only at an item that fails, whose errors are kept; Star is an optional Plus, empty when the Plus cannot start or fails; Option and Exists try their item exactly when the look-ahead can start it, keep its errors, and are present exactly if it produced a value.", "quantifier": "all item types, all tables, all inputs, all parser states", "why_tests_cant": "unbounded repetition over arbitrary item types", "anchors": ["packages/teleparse/src/tp_impl/iter.rs lines 34-59, 91-156, 186-206", "packages/teleparse/src/tp_impl/option.rs lines 49-107"]}
{"id": "C70", "title": "Printed production names identify the production", "statement": "The text of a production shown in grammar errors is different for different productions; optional repetitions are shown in starred form and any other optional production as (x)?.", "quantifier": "all productions, all names of terminals and declarations", "why_tests_cant": "tests compare the text of a handful of types; the claim is about all nestings", "anchors": ["packages/teleparse/src/tp_impl/option.rs lines 17-28", "packages/teleparse/src/tp_impl/iter.rs lines 16-18", "packages/teleparse/src/tp_impl/punct.rs lines 16-18", "packages/teleparse/src/tp_impl/tuple.rs lines 13-21"]}
{"id": "C71", "title": "Every recorded error has a correct message", "statement": "For every error recorded by a parse, Error::message succeeds; for unexpected characters or tokens it ends with exactly the source text of the error's span; for expecting errors it lists exactly the members of the expected set, sorted and without repetition.", "quantifier": "all syntax types, all tables, all inputs, all parser states, all recorded errors", "why_tests_cant": "no test prints messages; slicing could panic for an out-of-range span", "anchors": ["packages/teleparse/src/syntax/error.rs lines 24-41", "packages/teleparse/src/syntax/term_set.rs lines 225-245", "packages/teleparse/src/lex/span.rs lines 46-52"]}
{"id": "C72", "title": "derive_syntax accepts exactly the well-formed items", "statement": "derive_syntax accepts an item exactly if its own teleparse attribute (at most one) has only root and no_test, the latter not alone, and it is a struct with at least one field or an enum with at least one variant, every variant having exactly one unnamed field and no discriminant, and every member has at most one teleparse attribute with at most one semantic list and one hook. Root is implemented exactly if root is given; the LL(1) test is generated exactly if root but not no_test is given.", "quantifier": "all items (structs, enums, unions with any attributes, fields and variants)", "why_tests_cant": "there is one accepted-form test and no refusal test for derive_syntax; attribute combinations are unbounded", "anchors": ["packages/macros/src/syntax.rs lines 5-54, 56-72, 143-160, 232-296, 367-447", "packages/macros/src/prelude.rs lines 57-80, 111-143", "packages/macros/src/root.rs lines 5-51"]}
{"id": "C73", "title": "Generated code implements the declaration as written", "statement": "For an accepted item the generated code registers and produces all fields in declaration order with the span from first to last, or one alternative per variant whose index, type and constructor belong together; each member is marked with exactly the token types listed in its semantic attribute; the code compiles exactly if every semantic list is non-empty and names existing token types; the declaration is never empty.", "quantifier": "all accepted items, all lexicons with at most 32 variants, debug and release", "why_tests_cant": "a slip between the parallel lists the macro zips would only show for particular shapes", "anchors": ["packages/macros/src/syntax.rs lines 74-140, 162-229, 281-352", "packages/teleparse/src/lex/set.rs lines 135-148"]}
{"id": "C74", "title": "Unknown attributes are refused", "statement": "derive_syntax refuses items with an unknown entry in a teleparse attribute; accepted entries have an effect.", "quantifier": "all items", "why_tests_cant": "no test has an unknown attribute", "anchors": ["packages/macros/src/syntax.rs lines 372-387, 415-444"]}
{"id": "C75", "title": "The emitted item loses exactly its teleparse attributes", "statement": "The item emitted by derive_syntax equals the input without the teleparse attributes of the item and its fields or variants, everything else unchanged and in order; when the attributes of the item itself are refused, those of the members are left.", "quantifier": "all items, accepted or refused", "why_tests_cant": "attribute lists and member lists are unbounded; the expansion tests cover one item", "anchors": ["packages/macros/src/prelude.rs lines 45-80", "packages/macros/src/syntax.rs lines 31-36, 62-66, 150-153, 240-243"]}
{"id": "C76", "title": "Slices never cut a character", "statement": "If every span reported by the tokenizer starts and ends on a UTF-8 character boundary, then no slice of the source taken while parsing, printing an error or a node's text, or asking for the remaining input cuts a character (which would panic): all of them behave as if the boundary test were absent, and the condition holds again afterwards. The boundaries tested are exactly the starts of the code points of the text in UTF-8, and a slice between two of them has exactly the code points in between.", "quantifier": "all accepted types, sources, token streams on character boundaries, calls", "why_tests_cant": "texts with multi-byte characters are unbounded and the tests use ASCII", "anchors": ["packages/teleparse/src/lex/span.rs lines 46-52", "packages/teleparse/src/parser/parser_impl.rs lines 224-227", "packages/teleparse/src/parser/info.rs lines 31-37", "packages/teleparse/src/syntax/error.rs lines 24-41"]}
{"id": "C77", "title": "derive(ToSpan) delegates to the first field", "statement": "For every struct or enum in which the struct, or every variant, has a first field, derive(ToSpan) is accepted, the code compiles, and lo and hi of a value are lo and hi of its first field; only such items yield code that compiles.", "quantifier": "all items with distinct names, all values", "why_tests_cant": "field and variant lists are unbounded; the tests derive a few fixed items", "anchors": ["packages/macros/src/to_span.rs lines 3-102"]}
{"id": "C78", "title": "derive(ToSpan) emits only code that compiles", "statement": "Whatever derive(ToSpan) accepts, the emitted implementation compiles; other items are refused with a message.", "quantifier": "all items", "why_tests_cant": "no test derives ToSpan on degenerate items", "anchors": ["packages/macros/src/to_span.rs lines 3-102"]}
{"id": "C79", "title": "derive(Node) converts from and to its node", "statement": "Structs accepted by derive(Node) can be built from a Node (first field the node, the others default), the conversion target is the generic argument of the first field's type, and the inner value is that of the node.", "quantifier": "all structs, nodes, defaults", "why_tests_cant": "only the fixed uses in the library are compiled", "anchors": ["packages/macros/src/node.rs lines 3-116"]}
{"id": "C80", "title": "A derive macro leaves its item defined once", "statement": "After a derive macro has run on an item, accepted or refused, the item is defined exactly once.", "quantifier": "all items", "why_tests_cant": "no test lets a derive macro refuse an item", "anchors": ["packages/macros/src/prelude.rs lines 22-36", "packages/macros/src/to_span.rs lines 3-9", "packages/macros/src/node.rs lines 3-9"]}
{"id": "C81", "title": "derive_lexicon accepts exactly the well-formed items and emits what they say", "statement": "An item is accepted iff it is a non-generic enum with at most one teleparse attribute, in which only terminal_parse and at most one ignore(..) of strings occur, and its variants satisfy C61; the emitted enum has the variants in order valued 0,1,..; the tokenizer skips the ignore list; the bit type has the least sufficient width; all terminals are roots iff terminal_parse is given.", "quantifier": "all items, all regex engines", "why_tests_cant": "items are unbounded; tests cover a few enums", "anchors": ["packages/macros/src/lexicon.rs lines 5-62, 275-382, 422-426, 473"]}
{"id": "C82", "title": "derive_lexicon keeps what else is written on the enum", "statement": "Attributes of other macros, documentation and discriminants on the enum and its variants are kept in the emitted item, and on refusal the item is emitted without its teleparse attributes.", "quantifier": "all items", "why_tests_cant": "the tests' enums have no other attributes", "anchors": ["packages/macros/src/lexicon.rs lines 5-40, 275-282", "packages/macros/src/prelude.rs lines 38-80"]}
{"id": "C83", "title": "A terminal can be parsed as root", "statement": "The metadata of a terminal struct is always built, and parsing it takes the next token iff the terminal matches it; otherwise nothing is consumed. Every terminal declared in a lexicon with terminal_parse is such a root; it matches a token iff the token has the type of the variant declaring it and, if declared with a literal, that text.", "quantifier": "all terminals, parser states", "why_tests_cant": "token streams are unbounded; the tests try a few inputs", "anchors": ["packages/macros/src/lexicon.rs lines 395-476", "packages/macros/src/root.rs lines 5-51", "packages/teleparse/src/parser/parser_impl.rs"]}
{"id": "C84", "title": "The text of a grammar error is accurate", "statement": "The text of the error for a rejected grammar names the non-terminal and parts whose conflict is reported and lists exactly the terminals in question, sorted and without repetition; for sequences the list is relative to the conflict the code sees (C23).", "quantifier": "all grammars, all names", "why_tests_cant": "tests compare a handful of texts", "anchors": ["packages/teleparse/src/lib.rs lines 66-84", "packages/teleparse/src/syntax/metadata.rs lines 195-303"]}
{"id": "C85", "title": "A generated parser parses what is written and marks what is listed", "statement": "For items with derive_syntax as written in the source (attributes included) that are accepted: error-free results are parse trees of the grammar read off the items, every sentence of that grammar is parsed (under C36's conditions), and a recorded token carries the semantic type named y exactly if it lies in a field or variant whose semantic(..) lists y.", "quantifier": "all lists of items, lexicons, inputs", "why_tests_cant": "joins the macros, the grammar analysis and the parser over unbounded programs and inputs", "anchors": ["packages/macros/src/syntax.rs lines 41-447", "packages/teleparse/src/parser/parser_impl.rs", "packages/teleparse/src/syntax/metadata.rs"]}
{"id": "C86", "title": "The example parsers of the README parse exactly the arithmetic expressions", "statement": "The items of README.md (E -> T ( + T )*, T -> F ( * F )*, F -> ( E ) | id with tp::Split) and of tests/book_ex_recur.rs (the same language with E', T' and tp::Option) are accepted by derive_syntax and by the grammar checks; for every text and parser state both generated parsers end, and they return a tree for all remaining tokens without error exactly if these tokens are an arithmetic expression.", "quantifier": "all sources, all tokenizer outputs within contract, all metadata iteration orders", "why_tests_cant": "the tests parse one or two sources", "anchors": ["packages/teleparse/README.md lines 37-95", "packages/teleparse/tests/book_ex_simple.rs", "packages/teleparse/tests/book_ex_recur.rs"]}
{"id": "C87", "title": "Parsing takes linear work", "statement": "For an accepted root without nullable enum variants, all types productive: there is a constant, fixed by the grammar, such that for every input (a sentence or not) and every parser state the nesting of produce calls, the rounds of each repetition or recovery loop, and the number of stream operations performed are at most that constant times one plus the number of tokens to come.", "quantifier": "all grammars in the class, all sources, tokenizer outputs within contract, extracted types, parser states", "why_tests_cant": "a bound over all inputs including malformed ones; error recovery retries are where quadratic behaviour would hide", "anchors": ["packages/teleparse/src/tp_impl/iter.rs", "packages/teleparse/src/tp_impl/split.rs lines 80-170", "packages/teleparse/src/tp_impl/punct.rs lines 99-217", "packages/teleparse/src/tp_impl/recover.rs lines 34-120", "packages/teleparse/src/parser/parser_impl.rs"]}
{"id": "C88", "title": "No error before the input stops being the beginning of a sentence", "statement": "For an accepted, regular root: if the tokens up to and including tk can be continued to a sentence, no syntax error of the parse starts before the end of tk, whatever comes after tk and whatever the recovery code does. More generally, for any type and tables: if two inputs agree up to the end of tk and one of them is parsed without errors, the other has no error starting before the end of tk. The parser also reads all tokens up to tk; and if the whole input can be continued to a sentence, it is read to its end and every error starts there.", "quantifier": "all grammars in the class, sources, tokenizer outputs within contract, parser states, fuel", "why_tests_cant": "relates all runs on inputs with a common beginning, including malformed ones that go through error recovery", "anchors": ["packages/teleparse/src/tp_impl/*.rs", "packages/teleparse/src/parser/parser_impl.rs lines 45-85"]}
{"id": "C89", "title": "The first token no sentence allows is reported", "statement": "If the tokens up to u can be continued to a sentence and those up to the next token tk cannot, an error starts exactly at tk and none before, unless u is a sentence and was parsed as one, without errors. The README's parsers behave like this.", "quantifier": "all grammars in the class, sources, tokenizer outputs within contract, parser states, fuel", "why_tests_cant": "all inputs; depends on every recovery path keeping the first error", "anchors": ["packages/teleparse/src/tp_impl/split.rs lines 117-162", "packages/teleparse/src/tp_impl/punct.rs lines 136-205", "packages/teleparse/src/tp_impl/recover.rs lines 34-120"]}
{"id": "C90", "title": "Errors are listed in the order of the source", "statement": "The errors of a result are listed by increasing start position. False: after an element of tp::Split is given up and a later attempt at it recovers with errors, those come before the error for the text skipped (README parser on a+*(a: first 5..5, then 2..3); tp::Recover does the same with what it looks for. True, for any tables and inputs, when elements of Split and tails of Recover are parsed without error or not at all; then the syntax errors collected over any sequence of parse calls are in order too. The text errors of a parser are always in order among themselves.", "quantifier": "all types, tables, sources, tokenizer outputs within contract, parser states, sequences of calls", "why_tests_cant": "order has to hold over all inputs and all nestings of recovery; the tests compare single error lists", "anchors": ["packages/teleparse/src/tp_impl/split.rs lines 117-162", "packages/teleparse/src/tp_impl/recover.rs lines 34-120", "packages/teleparse/src/parser/parser_impl.rs lines 45-85"]}
{"id": "C91", "title": "What a parse puts out is linear in the input", "statement": "For every accepted, productive root there is a constant K such that on every input the tree returned has at most K*(1+n) nodes, n being the number of tokens to come, and at most K*(1+n) errors are recorded beyond those already there and those of the lexer. For any tables, errors and nodes are at most K times the operations performed.", "quantifier": "all grammars in the class, sources, tokenizer outputs within contract, parser states", "why_tests_cant": "a bound over inputs of all lengths, including malformed ones; error recovery could multiply errors at nested levels", "anchors": ["packages/teleparse/src/tp_impl/*.rs", "packages/teleparse/src/syntax/error.rs"]}
{"id": "C92", "title": "From the text to the tree", "statement": "A tokenizer that takes longest matches by the rules derive_lexicon emits meets the contract assumed elsewhere (ordered non-empty spans; tokens matching a rule of their type); every text can be scanned, in one way only when it has no errors and no part is of two kinds. With such a tokenizer, the parsers of README.md, from the declarations as written: for every ASCII text, parse returns a tree with nothing left and no error recorded exactly if the text is an arithmetic expression (names, +, *, parentheses, white space anywhere but inside names).", "quantifier": "all texts, rules, tokenizers taking longest matches; for the README all ASCII texts", "why_tests_cant": "all texts; the README is only tested with (a+b)*(c+d)", "anchors": ["packages/teleparse/README.md", "packages/macros/src/lexicon.rs lines 280-336", "packages/teleparse/src/lex/lexer.rs", "packages/teleparse/src/parser/parser_impl.rs"]}
{"id": "C93", "title": "The container of a list does not matter", "statement": "tp::Plus<V, T> and tp::Star<V, T> with any container V that asks its iterator for all elements and stops at the first None (as the standard library's do) behave as with Vec: same elements, span, errors and parser state; what V makes of the elements is the only difference. This is not so for containers that stop early (elements stay in the input) or ask again after None (the iterator is not fused and goes on after a failed element).", "quantifier": "all containers, element types, tables, parser states", "why_tests_cant": "the tests use Vec only; a FromIterator can drive the parser in arbitrarily many ways", "anchors": ["packages/teleparse/src/tp_impl/iter.rs lines 33-80, 157-206"]}
{"id": "C94", "title": "The layout does not matter", "statement": "Two sources whose tokens have the same types and texts, in whatever layout (white space, comments that are extracted, unrecognised text), are parsed alike, also when they have errors: parsing ends for both or neither, with the same tree, the same syntax errors and the same marks; positions are those of the same tokens in the other source. Only the source text stored by tp::String and tp::Parse may differ.", "quantifier": "all pairs of sources and tokenizer outputs, all types, any tables, any parser states", "why_tests_cant": "the layouts of a token sequence are infinitely many; recovery compares positions (Loop's progress check, the maximum in Punct, marks by span), which tests cannot show to be independent of distances", "anchors": ["packages/teleparse/src/parser/parser_impl.rs lines 193-254", "packages/teleparse/src/tp_impl/iter.rs lines 93-156", "packages/teleparse/src/tp_impl/punct.rs lines 99-217", "packages/teleparse/src/lex/vec.rs"]}
{"id": "C95", "title": "What one token cannot decide is refused", "statement": "In every accepted root, for every type used in it, one token of look-ahead decides: no two variants of an enum begin with the same token and at most one can be empty; a nullable part of a sequence does not begin like anything that can come right after it; the content of Option, Exists, Vec, Nev and Loop is never nullable, nor are element and delimiter of Punct; element and delimiter of Split are not both. In particular the types the book lists as common violations are never accepted: Option<Option<T>>, Vec<Option<T>>, (Option<T>, T). This holds whenever the generated test is_ll1 passes.", "quantifier": "all declarations and root types", "why_tests_cant": "all declarations, with types nested anywhere in them; the tests check a few grammars", "anchors": ["packages/teleparse/src/syntax/metadata.rs", "packages/teleparse/src/parser/tree.rs lines 28-32", "packages/book/src/tp/option.md", "packages/book/src/tp/iter.md", "packages/book/src/syntax_analysis/ll1.md"]}
{"id": "C96", "title": "One lexicon, no left recursion", "statement": "If all declarations compile as far as lexicon types go, and the lexicon of the root is found (it is that of the first field or variant, and so on inwards), every terminal used anywhere in the root is of that lexicon; the result does not depend on the compiler's recursion limit; a type whose lexicon depends on itself never compiles (the overflow described in the book). If moreover the root is accepted as LL(1), no type used in it can begin with itself, whether or not it has sentences. Conversely, declarations whose parts are declared, which use the terminals of one enum each and are in no circle of questions for a lexicon do compile, given a large enough recursion limit.", "quantifier": "all declarations, root types, assignments of terminals to lexicons, recursion limits", "why_tests_cant": "the compiler's answer for all possible declarations, and left recursion of any length through nullable parts", "anchors": ["packages/macros/src/syntax.rs lines 105, 194, 313", "packages/teleparse/src/tp_impl/tuple.rs lines 8-12", "packages/teleparse/src/tp_impl/option.rs lines 14-15", "packages/teleparse/src/tp_impl/iter.rs lines 13-14", "packages/teleparse/src/tp_impl/punct.rs lines 12-14", "packages/book/src/syntax_analysis/recursion.md"]}
{"id": "C97", "title": "A parse ends with its sentence", "statement": "If the tokens to come are a sentence of the root followed by a token that cannot continue any sentence there, Parser::parse reads exactly that sentence, records no error (but for unrecognised text) and leaves what follows for the next call; so repeated calls on one parser read a sequence of sentences one by one, if no sentence goes on with a token a sentence can begin with, for instance if sentences end with a literal not used elsewhere in them. Conversely what repeated calls read without errors is a sequence of sentences. Fails for a root that can end with tp::Punct: after a trailing delimiter the following tokens are reported and skipped.", "quantifier": "all accepted regular productive roots without tp::Loop and with no tp::Punct at the end, all parser states, all sequences of sentences", "why_tests_cant": "all grammars, all sequences of sentences of any length and whatever follows them; the tests parse single sources", "anchors": ["packages/teleparse/src/parser/parser_impl.rs", "packages/teleparse/src/tp_impl/punct.rs", "packages/teleparse/src/tp_impl/iter.rs"]}
{"id": "C98", "title": "What the answer of Root::parse tells", "statement": "Root::parse answers a sentence with its tree, and answers None only if the source is no sentence. A tree does not tell that the source is a sentence: in general it is the tree of a beginning of the source with some tokens left out and literals put in, and for types without tp::Punct, tp::Recover and tp::Loop the beginning so repaired is a sentence; for types of terminals without literal, structs, enums and tuples nothing is left out or put in. Trailing input is ignored and the recorded errors are dropped, so a sentence and a source that is none can have the same answer, and there can be a tree although no beginning of the source is a sentence.", "quantifier": "all accepted regular roots, all sources and tokenizer results", "why_tests_cant": "all grammars and sources; absence of any sentence in the language that is answered None", "anchors": ["packages/teleparse/src/parser/tree.rs lines 22-25", "packages/teleparse/src/parser/parser_impl.rs"]}
{"id": "C99", "title": "A recovered tree is the tree of a repaired input", "statement": "Whatever the tables say and whether or not errors were reported: a tree produced for a type has the shape the type demands (elements of a tp::Punct may be missing after a delimiter, the head of a tp::Recover may be missing, a tp::Loop may be empty), for a sequence of tokens that comes from the tokens consumed by leaving out some of them and inserting tokens of literals used in the type; every inserted token has an error of its own, which announces just that literal at that place. The tokens under tp::Exists, tp::Quote and tp::Parse, which the tree does not keep, are such tokens too. For types without Punct, Recover and Loop the repaired sequence is a sentence, of at most as many tokens as were consumed and errors reported.", "quantifier": "all types, tables, parser states, tokens to come, runs of produce and parse that give a tree", "why_tests_cant": "all erroneous inputs of all grammars; the tests check a few recovered trees", "anchors": ["packages/teleparse/src/parser/parser_impl.rs", "packages/teleparse/src/tp_impl/punct.rs", "packages/teleparse/src/tp_impl/split.rs", "packages/teleparse/src/tp_impl/recover.rs", "packages/teleparse/src/tp_impl/iter.rs", "packages/teleparse/src/tp_impl/option.rs", "packages/teleparse/src/tp_impl/string.rs", "packages/macros/src/syntax.rs"]}
{"id": "C100", "title": "Queries on slices of slices, marks through them", "statement": "A chain of queries (overlap, inside, ends_at_matches, begins_at_matches, each on the slice returned by the one before) on tokens in order gives a contiguous part of the vector with exactly the tokens chosen by all queries in turn, and no index is out of bounds; queries by spans give the tokens that meet all spans, in whatever order they are asked. apply_semantic on the slice at the end of a chain of the mutable variants adds the types to these tokens and changes nothing else in the vector. After any number of such marks Cell::types of a token is its own type, its earlier semantic types and those of the marks whose spans it meets (up to 32 token types).", "quantifier": "all vectors of tokens in order, all chains of queries of any length, predicates and sets of types", "why_tests_cant": "all vectors and chains; the tests query a vector of six tokens once", "anchors": ["packages/teleparse/src/lex/vec.rs lines 98-360", "packages/teleparse/src/lex/vec.rs lines 391-409"]}
{"id": "C101", "title": "What is left out of a tree has its error", "statement": "Every token consumed by a parse that returns a tree is in its place in the tree or belongs to a run of tokens left out. Each run left out and each literal inserted has an error of its own among those reported, and the error of a run starts inside the run or at the token directly behind it (the end of the source if there is none). If no error is reported, every token consumed is in its place in the tree. Types with tp::Recover are excepted at one place: a run at the end of the input may be left out without an error.", "quantifier": "all declarations, types, tables, inputs, also with errors", "why_tests_cant": "all declarations and erroneous inputs, nested recoveries; the tests compare the errors of a few inputs", "anchors": ["packages/teleparse/src/tp_impl/split.rs lines 80-170", "packages/teleparse/src/tp_impl/punct.rs lines 99-217", "packages/teleparse/src/tp_impl/iter.rs lines 36-206", "packages/teleparse/src/tp_impl/option.rs lines 78-107", "packages/teleparse/src/tp_impl/recover.rs lines 34-120", "packages/teleparse/src/syntax/error.rs lines 90-105"]}
{"id": "C102", "title": "A loop finds every item", "statement": "If a source consists of sentences of T, each followed by a token no sentence goes on with, and between them of tokens that begin no sentence of T, then parsing tp::Loop<T> ends, goes through the whole source, returns the trees of exactly these sentences in order, and reports each gap by exactly one error from its first to its last token; unrecognised characters apart, there are no other errors.", "quantifier": "all item types with regular accepted grammars (no tp::Punct at the end of an item), all sources of this form, any number and length of items and gaps", "why_tests_cant": "all grammars and all ways to scatter items over a source; the tests have a few inputs", "anchors": ["packages/teleparse/src/tp_impl/iter.rs lines 93-156", "packages/teleparse/src/parser/parser_impl.rs lines 71-85"]}
{"id": "C103", "title": "A list finds its elements in spite of broken ones", "statement": "Let a tp::Split<T, D> or tp::Punct<T, D> whose delimiter is a terminal stand anywhere in a grammar, and let the tokens be an element and then delimiters, each with behind it an element, some stray tokens (that begin no element or delimiter and do not follow the list) and an element, or just stray tokens or nothing, up to the end of the input or a token that follows the list. Then the list is consumed to its end, the result has the trees of exactly the elements in order, Split keeps the delimiters that have an element and Punct all of them, and there is exactly one error for each place with stray tokens or without an element, saying that an element (Punct: or what follows) is expected; the place is that of the stray tokens, extended by the next token if there is no element (Punct: only if that is a delimiter).", "quantifier": "all regular accepted grammars with a list of a non-nullable element and a terminal as delimiter, all lists of this form, any number of elements and broken elements", "why_tests_cant": "all element types, all ways to break a list, and exact places of all errors; the tests have a few lists", "anchors": ["packages/teleparse/src/tp_impl/split.rs lines 80-170", "packages/teleparse/src/tp_impl/punct.rs lines 99-217", "packages/teleparse/src/parser/parser_impl.rs lines 71-85"]}
{"id": "C104", "title": "Errors stay inside their statement", "statement": "Let D be a terminal that is no terminal of T, and let no part of T step over a D (there is no Loop or Recover in T, and the lists in T, Split or Punct, have D in their FOLLOW sets). A tp::Recover<T, D> anywhere in a grammar, with a D to come, consumes everything up to the first D, gives a node with that D as its end, and reports errors, all of them inside, if and only if the tokens before the D are not a T; if they are, the node has their tree. So Parser::parse with tp::Loop<tp::Recover<T, D>> is independent of what is wrong inside a statement: the source divides, by the ends alone, into gaps (tokens that begin no statement; one error each), statements (one element each, errors only inside it and only if it is no T) and possibly a last statement without end (no element; errors if and only if it is no T). Every source can be divided so, and everything is consumed.", "quantifier": "all regular accepted grammars of this form, all sources with any number of statements, good or broken in any way", "why_tests_cant": "all ways to break a statement and all combinations of statements; the tests have no source with more than one broken statement", "anchors": ["packages/teleparse/src/tp_impl/recover.rs lines 29-121", "packages/teleparse/src/tp_impl/iter.rs lines 93-156", "packages/teleparse/src/parser/parser_impl.rs lines 71-85"]}
{"id": "C105", "title": "Roots can be used by many threads", "statement": "Any number of threads call Root::parse and Root::assert_ll1 of any roots, any number of times, in any interleaving. Every call gives what it would have given in a program that makes only this call; the metadata of each root is built at most once; no thread waits for ever; the whole run ends after at most three steps per call.", "quantifier": "all numbers of threads, lists of calls, roots, and schedules", "why_tests_cant": "all interleavings; tests run one schedule", "anchors": ["packages/macros/src/root.rs lines 5-31", "packages/teleparse/src/parser/tree.rs lines 22-32"]}
{"id": "C106", "title": "The grammar analysis takes polynomial effort", "statement": "For a grammar whose terminals have one of v token types and one of u literals, the FIRST table is complete after at most 1 + p(1 + v(1 + u)) rounds, p the number of productions, and the FOLLOW table after at most 1 + (1 + e)(1 + v(1 + u)) rounds, e the number of productions and their parts; each round looks at no more than 2e relations. Registration, the left recursion check, the conflict checks and the construction of the jump table each make at most one call more than productions have parts. This holds for ill-formed grammars and for every order of TypeIds.", "quantifier": "all finite production sets, all orders", "why_tests_cant": "a bound over all grammars; fixpoint loops may be slow for a few shapes only", "anchors": ["packages/teleparse/src/syntax/first/builder.rs lines 37-98", "packages/teleparse/src/syntax/follow/builder.rs lines 43-100", "packages/teleparse/src/syntax/metadata.rs lines 91-331"]}
{"id": "C107", "title": "Lists of statements inside a source keep errors apart", "statement": "Star or Plus of Recover<T, D> anywhere in an accepted grammar, D a terminal that is no terminal of T and before which the lists in T end: the tokens to come are divided, in exactly one way, into statements up to their first D and a rest that begins no statement. Each statement gives one element and, if and only if it is no T, errors that lie inside it; parsing goes on right after the last statement. A last statement without D takes all the tokens to come and gives no element; if it is the first one of a Plus, the list fails.", "quantifier": "all accepted regular productive grammars, all statement types, all token sequences", "why_tests_cant": "arbitrary damage inside any number of statements of any grammar", "anchors": ["packages/teleparse/src/tp_impl/iter.rs lines 36-79", "packages/teleparse/src/tp_impl/recover.rs lines 34-120", "packages/teleparse/src/tp_impl/option.rs lines 78-107"]}
{"id": "C108", "title": "A part is parsed the same in every grammar", "statement": "A type used in two accepted grammars, with the same declarations behind it, gives the same result, the same errors and the same parser state in both, on every input, if the same tokens may follow its literals and its separated lists in both. A type without literals and separated lists needs no such condition. Declarations that a root does not use change nothing: its metadata (or the error that rejects it) and all its parses are the same.", "quantifier": "all pairs of accepted grammars, all common types, all inputs and parser states, all recursion depths", "why_tests_cant": "every pair of grammars with a common part, every position in every input", "anchors": ["packages/teleparse/src/syntax/metadata.rs lines 15-89", "packages/teleparse/src/syntax/metadata.rs lines 305-362", "packages/teleparse/src/parser/parser_impl.rs lines 130-163", "packages/teleparse/src/tp_impl/split.rs lines 80-170", "packages/teleparse/src/tp_impl/punct.rs lines 99-217"]}
{"id": "C109", "title": "Printed sets and tables say what they contain", "statement": "Two terminal sets compare equal, and are printed the same by Debug, exactly if they have the same members. A set is printed without repetition: the empty symbol if it is a member, Type:* if all tokens of the type are members, Type:\"literal\" if that one is but not all of its type are. The jump table of an enum of an accepted grammar is printed as the FIRST sets of its variants at their indices and nothing else.", "quantifier": "all terminal sets, all accepted grammars, all enums used in them", "why_tests_cant": "all sets over unbounded literals, all grammars", "anchors": ["packages/teleparse/src/syntax/term_set.rs lines 16-75", "packages/teleparse/src/syntax/lit_set.rs lines 7-27", "packages/teleparse/src/syntax/jump.rs lines 90-107", "packages/teleparse/src/lex/map.rs lines 38-42"]}
{"id": "C110", "title": "Adding and moving variants keeps what parsed", "statement": "If declarations are changed only by adding variants to enums and reordering variants, every sentence stays a sentence, and every source that the old parser parses to its end without error is parsed by the new one (if it is accepted and regular as in C36) without error, from the same tokens, to the same tree but for the numbers of the variants, and with the same semantic types on the tokens.", "quantifier": "all declarations, all extensions of them, all root types, all sources and parser states", "why_tests_cant": "pairs of grammars and all sources of the old one", "anchors": ["packages/teleparse/src/parser/parser_impl.rs lines 45-85", "packages/teleparse/src/syntax/jump.rs lines 20-60", "packages/macros/src/syntax.rs lines 240-345"]}
{"id": "C111", "title": "How types are written does not matter", "statement": "If two root types unfold to the same (they differ in names and numbers of declarations and terminals, in copies of declarations, in boxes, in annotations and in tuples used for structs), every source that one parses to its end without error is parsed by the other (if it is accepted and regular as in C36) without error, from the same tokens, to the same tree.", "quantifier": "all pairs of root types that unfold to the same, all sources and parser states", "why_tests_cant": "pairs of grammars and all sources", "anchors": ["packages/teleparse/src/tp_impl/tuple.rs lines 27-57", "packages/teleparse/src/tp_impl/boxed.rs lines 19-30", "packages/macros/src/syntax.rs lines 60-240"]}
{"id": "C112", "title": "Order and numbers of declarations do not matter", "statement": "If the variants of the lexicon, the declarations and the terminal structs are listed in another order (and others that the root does not use are added among them), the grammar gets the same verdict (the same kind of error at the same place with the same terminals, or tables with the same answers), and parsing a source with the same tokens gives the same tree, the same errors at the same places with the same expected sets, the same tokens with the same semantic types, also for wrong input.", "quantifier": "all renumberings that keep different things different, all declarations and root types, all visiting orders of the productions, all sources, token streams and parser states", "why_tests_cant": "all renumberings of all grammars on all inputs", "anchors": ["packages/teleparse/src/syntax/metadata.rs lines 18-90", "packages/teleparse/src/syntax/jump.rs lines 40-145", "packages/teleparse/src/syntax/term_set.rs lines 19-60", "packages/macros/src/lexicon.rs lines 60-200"]}
{"id": "C113", "title": "Texts that are no literal do not matter", "statement": "The parser looks at the text of a token only to compare it with the declared literals: if identifiers, numbers and other tokens are given other texts, such that no token becomes or stops being one of the literals declared for its type, the FIRST, FOLLOW and jump tables answer the same, and parsing gives the same tree (up to positions and quoted texts), the same syntax errors with the same expected sets at the same tokens and the same semantic types, also for wrong input and in another layout.", "quantifier": "all accepted grammars, all pairs of sources and token streams alike, all parser states, all fuel", "why_tests_cant": "all texts of all tokens in all inputs of all grammars", "anchors": ["packages/teleparse/src/parser/parser_impl.rs lines 71-190", "packages/teleparse/src/syntax/term_set.rs lines 19-120", "packages/teleparse/src/syntax/jump.rs lines 40-145"]}
{"id": "C114", "title": "How literals are spelled does not matter", "statement": "If every literal of the terminals is spelled in another way, different literals of a token type staying different, the grammar is accepted or rejected as before, its FIRST, FOLLOW and jump tables give the same answers for the tokens that correspond, and parsing a source with the corresponding tokens gives the same tree, syntax errors of the same kind at the same places which expect the corresponding tokens, and the same semantic types, also for wrong input and on later calls.", "quantifier": "all respellings that keep the literals different, all declarations and root types, all visiting orders of the productions, all sources, token streams and parser states", "why_tests_cant": "all respellings of all grammars on all inputs", "anchors": ["packages/teleparse/src/syntax/metadata.rs lines 18-90", "packages/teleparse/src/syntax/jump.rs lines 40-145", "packages/teleparse/src/syntax/term_set.rs lines 19-60", "packages/teleparse/src/syntax/lit_set.rs lines 20-120"]}
{"id": "C115", "title": "Parts of an accepted grammar are accepted", "statement": "Every type used in an accepted grammar is accepted as a root of its own, also when variants are taken away from the enums. Its FIRST, FOLLOW (but for the end of the input) and jump tables are parts of those of the grammar. Under the conditions of C36 on the grammar, each part parses all of its sentences as a root.", "quantifier": "all declarations, roots and types used in them, all selections and orders of variants, all visiting orders of the productions, all sources and token streams", "why_tests_cant": "all grammars with all of their parts", "anchors": ["packages/teleparse/src/syntax/metadata.rs lines 18-90", "packages/teleparse/src/syntax/metadata.rs lines 150-330", "packages/teleparse/src/parser/mod.rs"]}
{"id": "C116", "title": "Mending once is enough", "statement": "If parsing gave a tree with errors, leaving out and inserting the tokens as the errors announce (C99) gives a source that parses to its end, in any layout, without syntax errors, with the same tree but for positions and quoted texts. (For types without Punct, Recover and Loop, in accepted grammars under the conditions of C36.)", "quantifier": "all accepted grammars with these conditions, all sources, token streams and parser states, all layouts of the repaired source", "why_tests_cant": "all wrong inputs of all grammars with all their repairs", "anchors": ["packages/teleparse/src/parser/parser_impl.rs", "packages/teleparse/src/tp_impl/split.rs", "packages/teleparse/src/tp_impl/iter.rs", "packages/teleparse/src/syntax/error.rs"]}
{"id": "C117", "title": "What parses without errors parses the same everywhere", "statement": "A type that parses without errors in one accepted grammar gives the same tree, errors and final state in every other accepted grammar with the type: what may follow it does not matter, except after a Punct, which looks there whether its last separator is a trailing one. So what parses alone parses inside a grammar, and back without Punct; and a Vec<T> that parses without syntax errors gives the same trees and marks as one parse call per T, and the calls to the end the same as the Vec<T>. (For types without Recover; the last direction under the conditions of C36.)", "quantifier": "all pairs of accepted grammars, all shared types, all token streams and parser states", "why_tests_cant": "all surroundings of all types on all inputs", "anchors": ["packages/teleparse/src/parser/parser_impl.rs", "packages/teleparse/src/tp_impl/punct.rs", "packages/teleparse/src/tp_impl/iter.rs", "packages/teleparse/src/tp_impl/option.rs", "packages/teleparse/src/syntax/metadata.rs"]}
{"id": "C118", "title": "Separated lists, Recover, Exists, Loop and text nodes are abbreviations", "statement": "Replacing everywhere in a grammar Split<T, D> by (T, Vec<(D, T)>), Recover<T, R> by (T, R), Exists<T> by Option<T>, Loop<T> by Nev<T>, and text nodes by their content changes neither the tables nor whether or why the grammar is refused. Parsing without errors, Split<T, D> (D a terminal) consumes the same tokens with the same marks, elements and delimiters as (T, Vec<(D, T)>), at any place in any accepted grammars, in both directions, and so do Recover<T, R> compared with (T, R) and Nev<T> compared with (T, Vec<T>). Loop<T> parses without errors exactly where Vec<T> does so and leaves no tokens, with the same elements. (T, R without Recover and Punct; from tuples and Vec also without Loop.)", "quantifier": "all declarations and roots; all pairs of accepted grammars with the two types, all token streams and parser states", "why_tests_cant": "all grammars and all surroundings on all inputs", "anchors": ["packages/teleparse/src/tp_impl/split.rs", "packages/teleparse/src/tp_impl/recover.rs", "packages/teleparse/src/tp_impl/iter.rs", "packages/teleparse/src/tp_impl/option.rs", "packages/teleparse/src/tp_impl/string.rs", "packages/teleparse/src/tp_impl/tuple.rs", "packages/teleparse/src/syntax/metadata.rs"]}
{"id": "C119", "title": "Punct is a recursive struct", "statement": "Punct<T, D>, at any place in any accepted grammar, parses without errors exactly where struct P { a: T, b: Option<(D, Option<Box<P>>)> }, at any place in any accepted grammar, does so and ends with an element, at the end of the input, or before a token that may follow the Punct. Then both take the same tokens with the same marks and have the same elements and delimiters. (T, D without Recover and Punct.)", "quantifier": "all declarations, all pairs of accepted grammars with the two types, all token streams and parser states", "why_tests_cant": "all grammars and all surroundings on all inputs", "anchors": ["packages/teleparse/src/tp_impl/punct.rs", "packages/teleparse/src/tp_impl/option.rs", "packages/teleparse/src/tp_impl/tuple.rs", "packages/teleparse/src/tp_impl/boxed.rs", "packages/macros/src/syntax.rs"]}
