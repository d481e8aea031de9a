{
 "claims": [
  {
   "property": "C01",
   "status": "proved",
   "theorems": [
    "C01_set_algebra",
    "C01_set_inclusion"
   ],
   "note": "lexicons of 1..32 variants"
  },
  {
   "property": "C02",
   "status": "proved",
   "theorems": [
    "C02_set_iter"
   ],
   "note": ""
  },
  {
   "property": "C03",
   "status": "partial",
   "theorems": [
    "C03_wide_refuted",
    "C03_sign_refuted",
    "C03_low_partial",
    "C03_checked_partial",
    "C03_release_partial"
   ],
   "note": "claim is false of the code; proved instead: right for programs using only the first 32 types, right whenever a checked build does not panic, and in an unchecked build exactly the sets in which types equal modulo 32 are one type"
  },
  {
   "property": "C04",
   "status": "proved",
   "theorems": [
    "C04_span_get"
   ],
   "note": ""
  },
  {
   "property": "C05",
   "status": "proved",
   "theorems": [
    "C05_lexer_calls",
    "C05_blocks_partition",
    "C05_tokens"
   ],
   "note": ""
  },
  {
   "property": "C06",
   "status": "proved",
   "theorems": [
    "C06_lexer_spans"
   ],
   "note": ""
  },
  {
   "property": "C07",
   "status": "proved",
   "theorems": [
    "C07_tokens",
    "C07_extracted",
    "C07_extracted_never_reach_syntax",
    "C07_bad_text",
    "C07_bad_text_errors",
    "C07_all_read",
    "C07_start_in_order",
    "C07_in_order"
   ],
   "note": "histories are programs in a free monad whose later calls may depend on earlier answers"
  },
  {
   "property": "C08",
   "status": "proved",
   "theorems": [
    "C08_peek",
    "C08_peek_twice",
    "C08_peek_invisible",
    "C08_consume_is_peek",
    "C08_consume",
    "C08_current_span"
   ],
   "note": ""
  },
  {
   "property": "C09",
   "status": "proved",
   "theorems": [
    "C09_parse_token"
   ],
   "note": ""
  },
  {
   "property": "C10",
   "status": "proved",
   "theorems": [
    "C10_parse_token_lit"
   ],
   "note": ""
  },
  {
   "property": "C100",
   "status": "proved",
   "theorems": [
    "C100_view",
    "C100_spans",
    "C100_order",
    "C100_write",
    "C100_types"
   ],
   "note": "chains of slice queries give exactly the chosen contiguous part; marks through mutable slices change exactly these tokens"
  },
  {
   "property": "C101",
   "status": "proved",
   "theorems": [
    "C101_edits",
    "C101_parse",
    "C101_clean"
   ],
   "note": "every token is kept or in a run left out with an error of its own; with tp::Recover a run at the end of the input may have none (finding C35/C40)"
  },
  {
   "property": "C102",
   "status": "proved",
   "theorems": [
    "C102_loop"
   ],
   "note": "well-formed items are found whatever lies between them, as long as that begins no item"
  },
  {
   "property": "C103",
   "status": "proved",
   "theorems": [
    "C103_list",
    "C103_parse"
   ],
   "note": "exact places of the errors; an element that begins but then fails is not covered (C66)"
  },
  {
   "property": "C104",
   "status": "proved",
   "theorems": [
    "C104_recover",
    "C104_parse",
    "C104_divided"
   ],
   "note": "T without recovery of its own; a last statement that lacks only its end gives no element and no error (finding C35/C40)"
  },
  {
   "property": "C105",
   "status": "proved",
   "theorems": [
    "C105_answers",
    "C105_once",
    "C105_end",
    "C105_bound"
   ],
   "note": "contract of std::sync::OnceLock assumed in the model"
  },
  {
   "property": "C106",
   "status": "proved",
   "theorems": [
    "C106_first",
    "C106_follow",
    "C106_register",
    "C106_left",
    "C106_conflicts",
    "C106_jump"
   ],
   "note": "rounds and relations of the two fixpoints, calls of registration and checks; set operations inside a call are not counted"
  },
  {
   "property": "C107",
   "status": "proved",
   "theorems": [
    "C107_star",
    "C107_plus",
    "C107_plus_open",
    "C107_divided",
    "C107_once"
   ],
   "note": ""
  },
  {
   "property": "C108",
   "status": "proved",
   "theorems": [
    "C108_part",
    "C108_closed",
    "C108_unused"
   ],
   "note": ""
  },
  {
   "property": "C109",
   "status": "proved",
   "theorems": [
    "C109_equal",
    "C109_entries",
    "C109_same",
    "C109_jump"
   ],
   "note": ""
  },
  {
   "property": "C11",
   "status": "proved",
   "theorems": [
    "C11_inside",
    "C11_inside_bounds",
    "C11_at_span",
    "C11_at_span_equal_refuted"
   ],
   "note": ""
  },
  {
   "property": "C110",
   "status": "proved",
   "theorems": [
    "C110_language",
    "C110_parse",
    "C110_marks"
   ],
   "note": ""
  },
  {
   "property": "C111",
   "status": "proved",
   "theorems": [
    "C111_parse",
    "C111_sym"
   ],
   "note": ""
  },
  {
   "property": "C112",
   "status": "proved",
   "theorems": [
    "C112_registered",
    "C112_verdict",
    "C112_parse",
    "C112_program"
   ],
   "note": ""
  },
  {
   "property": "C113",
   "status": "proved",
   "theorems": [
    "C113_tables",
    "C113_parse",
    "C113_again"
   ],
   "note": ""
  },
  {
   "property": "C114",
   "status": "proved",
   "theorems": [
    "C114_verdict",
    "C114_tables",
    "C114_parse",
    "C114_again"
   ],
   "note": ""
  },
  {
   "property": "C115",
   "status": "proved",
   "theorems": [
    "C115_accepted",
    "C115_tables",
    "C115_parse"
   ],
   "note": ""
  },
  {
   "property": "C116",
   "status": "proved",
   "theorems": [
    "C116_again"
   ],
   "note": ""
  },
  {
   "property": "C117",
   "status": "proved",
   "theorems": [
    "C117_same",
    "C117_inside",
    "C117_alone",
    "C117_each",
    "C117_list"
   ],
   "note": ""
  },
  {
   "property": "C118",
   "status": "proved",
   "theorems": [
    "C118_tables",
    "C118_accepted",
    "C118_split",
    "C118_unsplit",
    "C118_recover",
    "C118_unrecover",
    "C118_loop",
    "C118_unloop",
    "C118_plus",
    "C118_unplus"
   ],
   "note": ""
  },
  {
   "property": "C119",
   "status": "proved",
   "theorems": [
    "C119_nest",
    "C119_unnest",
    "C119_trailing"
   ],
   "note": ""
  },
  {
   "property": "C12",
   "status": "partial",
   "theorems": [
    "C12_overlap_partial",
    "C12_overlap_empty_refuted",
    "C12_overlap_general"
   ],
   "note": "false for empty query spans"
  },
  {
   "property": "C13",
   "status": "proved",
   "theorems": [
    "C13_ends_at",
    "C13_begins_at"
   ],
   "note": ""
  },
  {
   "property": "C14",
   "status": "proved",
   "theorems": [
    "C14_apply_semantic",
    "C14_apply_commutes",
    "C14_apply_idempotent"
   ],
   "note": ""
  },
  {
   "property": "C15",
   "status": "partial",
   "theorems": [
    "C15_new",
    "C15_insert",
    "C15_one",
    "C15_insert_changed",
    "C15_insert_e",
    "C15_insert_e_changed",
    "C15_remove_e",
    "C15_union",
    "C15_union_changed",
    "C15_intersects",
    "C15_intersection_repr",
    "C15_clear_exact",
    "C15_clear_refuted",
    "C15_to_repr"
   ],
   "note": "All operations exact except clear: the faithful model violates the property (C15_clear_refuted: a literal-less terminal survives clear); C15_clear_exact characterises what clear leaves."
  },
  {
   "property": "C16",
   "status": "proved",
   "theorems": [
    "C16_first_terminates"
   ],
   "note": "Number of passes bounded for every list of declarations; more fuel gives the same table."
  },
  {
   "property": "C17",
   "status": "proved",
   "theorems": [
    "C17_first_exact"
   ],
   "note": "Against derivations of sentential forms (CfgSpec)."
  },
  {
   "property": "C18",
   "status": "proved",
   "theorems": [
    "C18_order_independent"
   ],
   "note": "Same error value (including the listed items), or tables with the same members and the same predictive table."
  },
  {
   "property": "C19",
   "status": "proved",
   "theorems": [
    "C19_follow_terminates"
   ],
   "note": ""
  },
  {
   "property": "C20",
   "status": "proved",
   "theorems": [
    "C20_follow_sound"
   ],
   "note": "For declarations reachable from the root, which is what registration produces."
  },
  {
   "property": "C21",
   "status": "partial",
   "theorems": [
    "C21_follow_exact_as_coded",
    "C21_follow_complete_eof",
    "C21_follow_complete_partial",
    "C21_textbook",
    "C21_follow_complete_refuted"
   ],
   "note": "False in general (finding): followers behind a nullable inner element are missed. Proved: exact characterisation of what is computed; complete for end of input; complete when no sequence has a nullable element strictly inside; real followers = textbook rules (C21_textbook)."
  },
  {
   "property": "C22",
   "status": "proved",
   "theorems": [
    "C22_first_first_reported",
    "C22_first_first_rejected"
   ],
   "note": "A reported conflict is a real one, earliest first, with exactly the common items; any reachable clash leads to rejection (possibly with another error found earlier in the traversal)."
  },
  {
   "property": "C23",
   "status": "partial",
   "theorems": [
    "C23_seq_reported",
    "C23_seq_rejected",
    "C23_seq_reported_partial",
    "C23_seq_refuted"
   ],
   "note": "Every real conflict is rejected. The converse is false (finding): LitSet::clear keeps Any, giving spurious conflicts; proved without nullable elements that start with all texts of a type."
  },
  {
   "property": "C24",
   "status": "partial",
   "theorems": [
    "C24_seq_names_refuted",
    "C23_seq_reported"
   ],
   "note": "False (finding): the element named is the last non-nullable one (or the first). C23_seq_reported characterises it."
  },
  {
   "property": "C25",
   "status": "partial",
   "theorems": [
    "C25_rejection_justified_partial",
    "C25_rejection_refuted"
   ],
   "note": "False for sequence conflicts caused by LitSet::clear; proved for all other errors and, for sequence conflicts, without open nullable elements."
  },
  {
   "property": "C26",
   "status": "partial",
   "theorems": [
    "C26_accepted_ll1_partial",
    "C26_accepted_table_partial",
    "C26_accepted_refuted"
   ],
   "note": "False in general because of C21; proved when no sequence has a nullable element strictly inside, and when the FOLLOW table misses no token that both starts and follows a nullable choice."
  },
  {
   "property": "C27",
   "status": "proved",
   "theorems": [
    "C27_jump_exact"
   ],
   "note": ""
  },
  {
   "property": "C28",
   "status": "proved",
   "theorems": [
    "C28_not_left_recursive"
   ],
   "note": ""
  },
  {
   "property": "C29",
   "status": "partial",
   "theorems": [
    "C29_left_recursion_refuted",
    "C29_error_never_produced"
   ],
   "note": "False (finding): the LeftRecursion error is dead code, proved never produced."
  },
  {
   "property": "C30",
   "status": "proved",
   "theorems": [
    "C30_terminates",
    "C30_visits_once",
    "C30_fuel_irrelevant",
    "C30_all_reachable",
    "C30_language"
   ],
   "note": "Registration of all productions reachable from the root, and the grammar it yields has the language of the type."
  },
  {
   "property": "C31",
   "status": "proved",
   "theorems": [
    "C31_metadata_total",
    "C31_grammar_errors_first",
    "C31_grammar_error_returned"
   ],
   "note": ""
  },
  {
   "property": "C32",
   "status": "proved",
   "theorems": [
    "C32_parse",
    "C32_produce",
    "C32_grounded"
   ],
   "note": "Needs, besides acceptance: no empty tuple/struct, no nullable enum variant, every type productive (or grounded). C33 shows the conditions are needed."
  },
  {
   "property": "C33",
   "status": "partial",
   "theorems": [
    "C33_refuted",
    "C33_option_refuted",
    "C33_unproductive_refuted"
   ],
   "note": "False of the code (finding): acceptance alone does not imply termination, for two independent causes (nullable enums, types without finite sentences). C32 proves termination under conditions excluding both."
  },
  {
   "property": "C34",
   "status": "proved",
   "theorems": [
    "C34_produce",
    "C34_parse",
    "C34_language",
    "C34_derives",
    "C34_loop_refuted"
   ],
   "note": "The derivation part is for types without Loop; for Loop it is false (C34_loop_refuted)."
  },
  {
   "property": "C35",
   "status": "partial",
   "theorems": [
    "C35_refuted",
    "C35_C40_input_left_partial",
    "C35_C40_nullable_tails_partial"
   ],
   "note": "False of the code (finding). Holds when input is left or all recovery parts are nullable."
  },
  {
   "property": "C36",
   "status": "proved",
   "theorems": [
    "C36_parse",
    "C36_produce",
    "C36_interior",
    "C36_follow"
   ],
   "note": "Under regular (CompleteSpec): the conditions named in the property plus non-empty structs/tuples, which the macro enforces. C36_parse is for the root (which may be a Loop) and all remaining tokens; C36_produce for every used type and any continuation that can follow it; C36_interior and C36_follow give ways to establish regular."
  },
  {
   "property": "C37",
   "status": "partial",
   "theorems": [
    "C37_refuted",
    "C37_trailing_refuted",
    "C37_enum_refuted",
    "C37_delimiter_refuted",
    "C37_loop_refuted"
   ],
   "note": "False of the code: five accepted roots with a sentence that is not parsed, one for each condition of C36. The true version is C36."
  },
  {
   "property": "C38",
   "status": "proved",
   "theorems": [
    "C38_part",
    "C38_root",
    "C38_interior_refuted"
   ],
   "note": "Under the conditions of C36. C38_interior_refuted: without the condition on sequences an accepted grammar can be ambiguous."
  },
  {
   "property": "C39",
   "status": "proved",
   "theorems": [
    "C39_failure_has_error",
    "C39_panic_has_error"
   ],
   "note": ""
  },
  {
   "property": "C40",
   "status": "partial",
   "theorems": [
    "C40_refuted",
    "C35_C40_input_left_partial",
    "C35_C40_nullable_tails_partial"
   ],
   "note": "False of the code (finding): Recover<a, \"(\"> on \"a\" gives no tree and no error. Holds when input is left or all recovery parts are nullable."
  },
  {
   "property": "C41",
   "status": "proved",
   "theorems": [
    "C41_forward"
   ],
   "note": "For every program over the parser interface, so for every grammar and outcome."
  },
  {
   "property": "C42",
   "status": "proved",
   "theorems": [
    "C42_one_token"
   ],
   "note": ""
  },
  {
   "property": "C43",
   "status": "proved",
   "theorems": [
    "C43_no_panic",
    "C43_empty"
   ],
   "note": ""
  },
  {
   "property": "C44",
   "status": "proved",
   "theorems": [
    "C44_trace",
    "C44_over",
    "C44_accepted",
    "C44_advances",
    "C44_parse",
    "C44_enum_refuted"
   ],
   "note": "No panic, exhausted-or-NoAdvance and the cover of skipped tokens hold for any tables. That accepted grammars never report NoAdvance needs enums without nullable variants (plain_enums); C44_enum_refuted is the finding for the case without that condition."
  },
  {
   "property": "C45",
   "status": "proved",
   "theorems": [
    "C45_split_counts"
   ],
   "note": ""
  },
  {
   "property": "C46",
   "status": "proved",
   "theorems": [
    "C46_punct_counts",
    "C46_punct_nonempty"
   ],
   "note": ""
  },
  {
   "property": "C47",
   "status": "proved",
   "theorems": [
    "C47_recovered_has_error"
   ],
   "note": ""
  },
  {
   "property": "C48",
   "status": "partial",
   "theorems": [
    "C48_spans_partial",
    "C48_tight_refuted"
   ],
   "note": "All but tightness of the start: a node beginning with an absent optional part starts at the end of the previous token (C48_tight_refuted); tight for types that begin with a token."
  },
  {
   "property": "C49",
   "status": "partial",
   "theorems": [
    "C49_refuted",
    "C49_in_source",
    "C49_ordered_partial"
   ],
   "note": "False of the code at the end of the input (finding); holds when input is left."
  },
  {
   "property": "C50",
   "status": "proved",
   "theorems": [
    "C50_quote",
    "C50_parse",
    "C50_no_crash"
   ],
   "note": ""
  },
  {
   "property": "C51",
   "status": "proved",
   "theorems": [
    "C51_produce",
    "C51_starts",
    "C51_parse"
   ],
   "note": "Every error lies in the source, at ends of tokens, and starts at a token not read before or at the end of the source."
  },
  {
   "property": "C52",
   "status": "proved",
   "theorems": [
    "C52_unlisted"
   ],
   "note": ""
  },
  {
   "property": "C53",
   "status": "proved",
   "theorems": [
    "C53_resume",
    "C53_invariant"
   ],
   "note": ""
  },
  {
   "property": "C54",
   "status": "proved",
   "theorems": [
    "C54_box",
    "C54_quote",
    "C54_parse",
    "C54_exists",
    "C54_star"
   ],
   "note": ""
  },
  {
   "property": "C55",
   "status": "proved",
   "theorems": [
    "C55_exact",
    "C55_exact_parse",
    "C55_kept",
    "C55_kept_parse",
    "C55_justified",
    "C55_justified_parse",
    "C55_stable"
   ],
   "note": "C55_exact: iff, for error-free results of types without Recover and without annotations inside Exists/Quote/Parse (whose value drops the annotated node). C55_kept and C55_justified give the two directions for every outcome, every type and any tables; in C55_justified the annotated part is one produced during the run, whether or not the final tree keeps it. C55_stable: recorded tokens never change and marks are never removed."
  },
  {
   "property": "C56",
   "status": "partial",
   "theorems": [
    "C56_lexed_types",
    "C56_rules_partial",
    "C56_tokens_partial",
    "C56_refuted",
    "C56_semantic_first"
   ],
   "note": "False of the code: a semantic-only variant declared before a variant with rules shifts the rules (lexicon.rs 261-269 pushes an empty attribute list without an ident). Proved when semantic-only variants come last; which types are lexer variants is proved always."
  },
  {
   "property": "C57",
   "status": "partial",
   "theorems": [
    "C57_one_bare",
    "C57_literals_partial",
    "C57_literals_without_bare",
    "C57_refuted"
   ],
   "note": "Two terminals without literal are always refused. A literal repeated after a terminal without literal is accepted (refuted); all other repetitions are refused."
  },
  {
   "property": "C58",
   "status": "proved",
   "theorems": [
    "C58_extracted",
    "C58_reaches_syntax",
    "C58_text_partial",
    "C58_text_refuted"
   ],
   "note": "Proved as stated (type level). The stronger claim about the text of the token holds when semantic-only variants come last, and is refuted otherwise because of C56."
  },
  {
   "property": "C59",
   "status": "proved",
   "theorems": [
    "C59_progress"
   ],
   "note": ""
  },
  {
   "property": "C60",
   "status": "proved",
   "theorems": [
    "C60_quiet"
   ],
   "note": ""
  },
  {
   "property": "C61",
   "status": "proved",
   "theorems": [
    "C61_accepted"
   ],
   "note": "The regex engine is a parameter."
  },
  {
   "property": "C62",
   "status": "proved",
   "theorems": [
    "C62_terminals",
    "C62_count"
   ],
   "note": ""
  },
  {
   "property": "C63",
   "status": "proved",
   "theorems": [
    "C63_map_new",
    "C63_map",
    "C63_map_eq"
   ],
   "note": "maps as arrays of the lexicon's size"
  },
  {
   "property": "C64",
   "status": "proved",
   "theorems": [
    "C64_remaining"
   ],
   "note": "state_ok holds of every state reachable from a fresh parser (C08)"
  },
  {
   "property": "C65",
   "status": "proved",
   "theorems": [
    "C65_tokens",
    "C65_success",
    "C65_parse"
   ],
   "note": "for every table, so also for the tables the library computes; which separator stands before which element of a Punct node with missing elements is not recorded in the node, so yields allows any merge there"
  },
  {
   "property": "C66",
   "status": "proved",
   "theorems": [
    "C66_split",
    "C66_punct",
    "C66_recover",
    "C66_fail"
   ],
   "note": "Induction over the fuelled loops, connected to produce; holds for any tables. The report at end of input is only claimed for element types without Recover, whose failure may carry no error there."
  },
  {
   "property": "C67",
   "status": "proved",
   "theorems": [
    "C67_last",
    "C67_parse"
   ],
   "note": "Induction over types on the abstract stream; the Recover exception is in the statement."
  },
  {
   "property": "C68",
   "status": "proved",
   "theorems": [
    "C68_expected"
   ],
   "note": "Induction over types; sets are compared as sets of tokens for terminals and Punct, as tables entries otherwise."
  },
  {
   "property": "C69",
   "status": "proved",
   "theorems": [
    "C69_plus",
    "C69_star",
    "C69_option",
    "C69_exists"
   ],
   "note": "Induction over the item loop; holds for any tables."
  },
  {
   "property": "C70",
   "status": "partial",
   "theorems": [
    "C70_refuted",
    "C70_star_partial",
    "C70_punct_partial",
    "C70_opt_partial",
    "C70_box_partial",
    "C70_flat_partial"
   ],
   "note": "False of the code: refuted by two productions with the same text. Proved: the forms of optional productions."
  },
  {
   "property": "C71",
   "status": "proved",
   "theorems": [
    "C71_messages"
   ],
   "note": ""
  },
  {
   "property": "C72",
   "status": "proved",
   "theorems": [
    "C72_accepts",
    "C72_root"
   ],
   "note": ""
  },
  {
   "property": "C73",
   "status": "proved",
   "theorems": [
    "C73_decl",
    "C73_fitting",
    "C73_compiles",
    "C73_filled"
   ],
   "note": "Lexicons with at most 32 variants (C03)."
  },
  {
   "property": "C74",
   "status": "partial",
   "theorems": [
    "C74_refuted",
    "C74_no_effect",
    "C74_refused_partial"
   ],
   "note": "False of the code: a list entry with an unknown name on a field or variant is accepted and ignored; hook(..) is parsed and ignored. Refusal is proved for every other unknown entry."
  },
  {
   "property": "C75",
   "status": "proved",
   "theorems": [
    "C75_item"
   ],
   "note": ""
  },
  {
   "property": "C76",
   "status": "proved",
   "theorems": [
    "C76_parse",
    "C76_kept",
    "C76_nodes",
    "C76_messages",
    "C76_remaining",
    "C76_boundary",
    "C76_slices"
   ],
   "note": "Assumes the tokenizer reports spans on character boundaries; C76_cut_ex shows the assumption is needed. C76_boundary: the boundaries are those of UTF-8."
  },
  {
   "property": "C77",
   "status": "proved",
   "theorems": [
    "C77_works",
    "C77_only"
   ],
   "note": "Emitted code as data, compiled and executed in the model."
  },
  {
   "property": "C78",
   "status": "partial",
   "theorems": [
    "C78_refuted",
    "C78_partial"
   ],
   "note": "False of the code for empty tuple structs, empty tuple variants and empty enums; proved otherwise."
  },
  {
   "property": "C79",
   "status": "partial",
   "theorems": [
    "C79_partial",
    "C79_refuted",
    "C79_only"
   ],
   "note": "Proved for tuple structs; false for structs with named fields."
  },
  {
   "property": "C80",
   "status": "partial",
   "theorems": [
    "C80_partial",
    "C80_refuted"
   ],
   "note": "Proved for accepted items; false for every refused item."
  },
  {
   "property": "C81",
   "status": "proved",
   "theorems": [
    "C81_accepts",
    "C81_output"
   ],
   "note": "All items, arbitrary regex engine."
  },
  {
   "property": "C82",
   "status": "partial",
   "theorems": [
    "C82_refuted",
    "C82_dropped",
    "C82_partial"
   ],
   "note": "False of the code for accepted enums; the part about refused ones is proved."
  },
  {
   "property": "C83",
   "status": "proved",
   "theorems": [
    "C83_metadata",
    "C83_parse",
    "C83_declared"
   ],
   "note": "Includes the behaviour at the end of the input."
  },
  {
   "property": "C84",
   "status": "proved",
   "theorems": [
    "C84_texts"
   ],
   "note": "All rejected grammars; items exact."
  },
  {
   "property": "C85",
   "status": "proved",
   "theorems": [
    "C85_sound",
    "C85_complete",
    "C85_marks",
    "C85_kept"
   ],
   "note": "From items as written: grammar and annotated parts are read off the source (SourceSpec); soundness, completeness (C36 conditions) and semantic types by name."
  },
  {
   "property": "C86",
   "status": "proved",
   "theorems": [
    "C86_written",
    "C86_lists",
    "C86_recursive",
    "C86_ends"
   ],
   "note": "Both example grammars, from the items as written to the language; any iteration order of the tables."
  },
  {
   "property": "C87",
   "status": "proved",
   "theorems": [
    "C87_linear",
    "C87_grounded"
   ],
   "note": "Stream operations (look-ahead, text, span, consume, mark, record) are counted; the work of the tokenizer inside a look-ahead, of set membership and of list appends is not. Conditions are those of C32 (C33 refutes termination without them)."
  },
  {
   "property": "C88",
   "status": "proved",
   "theorems": [
    "C88_no_false_alarm",
    "C88_parse",
    "C88_same_beginning",
    "C88_reads_on",
    "C88_end"
   ],
   "note": "Under the conditions of C36 (accepted, regular); C88_same_beginning for any tables."
  },
  {
   "property": "C89",
   "status": "partial",
   "theorems": [
    "C89_refuted",
    "C89_readme_refuted",
    "C89_some_error_partial",
    "C89_first_error_partial",
    "C89_any_tables_partial",
    "C89_parse_partial",
    "C89_readme_recursive"
   ],
   "note": "False of the code in general: a failing list element keeps only its last error (C89_refuted; also the README's list parser, C89_readme_refuted). Proved: some error in all cases; the exact claim when list elements fail with a single error; the README's recursive parser."
  },
  {
   "property": "C90",
   "status": "partial",
   "theorems": [
    "C90_readme_refuted",
    "C90_recover_refuted",
    "C90_result_partial",
    "C90_calls_partial",
    "C90_text_partial",
    "C90_readme_partial"
   ],
   "note": "False in general (two counterexamples, one with the README's parser). Proved when Split elements and Recover tails are parsed without error or not at all; text errors always."
  },
  {
   "property": "C91",
   "status": "proved",
   "theorems": [
    "C91_output",
    "C91_linear"
   ],
   "note": "Nodes and errors bounded by a constant times operations for any tables; by a constant times tokens for accepted productive roots."
  },
  {
   "property": "C92",
   "status": "proved",
   "theorems": [
    "C92_contract",
    "C92_scans",
    "C92_unique",
    "C92_readme"
   ],
   "note": "Longest match is a contract on the external tokenizer (ScanSpec.scan); regexes restricted to ASCII texts."
  },
  {
   "property": "C93",
   "status": "proved",
   "theorems": [
    "C93_plus",
    "C93_star",
    "C93_early_refuted",
    "C93_unfused_refuted"
   ],
   "note": "For orderly containers; the refuted theorems show that the condition is needed."
  },
  {
   "property": "C94",
   "status": "proved",
   "theorems": [
    "C94_produce",
    "C94_parse",
    "C94_again"
   ],
   "note": ""
  },
  {
   "property": "C95",
   "status": "proved",
   "theorems": [
    "C95_by_token",
    "C95_test",
    "C95_test_passes",
    "C95_option_option",
    "C95_vec_option",
    "C95_nev_option",
    "C95_option_before"
   ],
   "note": "Type-level reading of the conflict checks, stated with sentences only; covers the violations listed in the book."
  },
  {
   "property": "C96",
   "status": "proved",
   "theorems": [
    "C96_one_lexicon",
    "C96_limit",
    "C96_circle",
    "C96_not_left_recursive",
    "C96_compiles"
   ],
   "note": "The Rust compiler's trait resolution is modelled only as far as the chain of <P as Production>::L goes, with the recursion limit counted per step."
  },
  {
   "property": "C97",
   "status": "proved",
   "theorems": [
    "C97_next",
    "C97_reads",
    "C97_sound",
    "C97_terminator",
    "C97_punct_refuted"
   ],
   "note": "For roots without tp::Loop and with no tp::Punct at their end; C97_punct_refuted shows that the claim fails with one."
  },
  {
   "property": "C98",
   "status": "proved",
   "theorems": [
    "C98_sentence",
    "C98_none",
    "C98_tree",
    "C98_clean",
    "C98_trailing_refuted",
    "C98_errors_refuted"
   ],
   "note": "what the answers tell, with counterexamples showing that a tree does not tell more"
  },
  {
   "property": "C99",
   "status": "proved",
   "theorems": [
    "C99_repair",
    "C99_parse",
    "C99_sentence",
    "C99_count"
   ],
   "note": "a produced tree, recovered or not, fits its type for the input with tokens left out and announced literals inserted, one error each"
  }
 ]
}
