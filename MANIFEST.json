{
 "claims": [
  {
   "property": "C01",
   "status": "proved",
   "theorems": [
    "C01_print_parse_round_trip"
   ],
   "note": "For every documented regex and every terminal printer choice of the proptest printer."
  },
  {
   "property": "C02",
   "status": "partial",
   "theorems": [
    "C02_pattern_interpreted_completely_refuted",
    "C02_pattern_interpreted_completely_partial"
   ],
   "note": "False as stated: `a)b` is accepted as `a`. Proved: what is interpreted is a prefix of the tokens, complete when no unbalanced `)` occurs."
  },
  {
   "property": "C03",
   "status": "partial",
   "theorems": [
    "C03_add_token_no_panic_refuted",
    "C03_add_token_no_panic_partial"
   ],
   "note": "False as stated: `a||b` panics. Proved: these two causes are the only ones."
  },
  {
   "property": "C04",
   "status": "proved",
   "theorems": [
    "C04_regex_parsing_terminates"
   ],
   "note": ""
  },
  {
   "property": "C05",
   "status": "partial",
   "theorems": [
    "C05_spans_tile_refuted",
    "C05_spans_tile_partial"
   ],
   "note": "False as stated: a token cut off by the end of the pattern reports its end as 1. Proved: this is the only exception."
  },
  {
   "property": "C06",
   "status": "partial",
   "theorems": [
    "C06_bounds_exact_or_rejected_refuted",
    "C06_bounds_exact_or_rejected_partial"
   ],
   "note": "False as stated above 2^32; proved for bounds that fit."
  },
  {
   "property": "C07",
   "status": "partial",
   "theorems": [
    "C07_escapes_exact_refuted",
    "C07_escapes_exact_partial"
   ],
   "note": "False as stated; proved when the text after the escape does not continue it."
  },
  {
   "property": "C08",
   "status": "proved",
   "theorems": [
    "C08_escaped_text"
   ],
   "note": ""
  },
  {
   "property": "C09",
   "status": "proved",
   "theorems": [
    "C09_character_sets"
   ],
   "note": ""
  },
  {
   "property": "C10",
   "status": "proved",
   "theorems": [
    "C10_automata_well_formed"
   ],
   "note": ""
  },
  {
   "property": "C11",
   "status": "partial",
   "theorems": [
    "C11_regular_language_refuted",
    "C11_implemented_language",
    "C11_regular_language_partial"
   ],
   "note": "False as stated: `(a*b)+` rejects `b`. Proved: the exact language accepted for every regex, and equality with the regular language under lead_ok."
  },
  {
   "property": "C12",
   "status": "partial",
   "theorems": [
    "C12_matching_terminates_refuted",
    "C12_matching_terminates_partial",
    "C12_lexing_terminates_partial"
   ],
   "note": "False as stated: `(a*)*` diverges on `a`. Proved when no repeated group matches the empty text; C62 gives the exact condition."
  },
  {
   "property": "C13",
   "status": "proved",
   "theorems": [
    "C13_simulator_order_independent",
    "C13_tokens_order_independent"
   ],
   "note": ""
  },
  {
   "property": "C14",
   "status": "partial",
   "theorems": [
    "C14_runs_bounded_refuted",
    "C14_runs_bounded_partial"
   ],
   "note": "False as stated: runs double with each character. Proved for every regex: the number of different runs is polynomial in the length of the text (C105_runs has explicit numbers). C101 says when the number of runs is bounded, C111 how fast it can grow."
  },
  {
   "property": "C15",
   "status": "proved",
   "theorems": [
    "C15_can_feed_exact",
    "C15_regex_automata_built"
   ],
   "note": ""
  },
  {
   "property": "C16",
   "status": "proved",
   "theorems": [
    "C16_tokens_nonempty"
   ],
   "note": ""
  },
  {
   "property": "C17",
   "status": "partial",
   "theorems": [
    "C17_tokens_tile_refuted",
    "C17_tokens_tile_partial"
   ],
   "note": "False as stated: a character handed back twice is lost. Proved when what is read in vain after a match can be read again (resumable)."
  },
  {
   "property": "C18",
   "status": "partial",
   "theorems": [
    "C18_first_pattern_refuted",
    "C18_first_pattern_partial"
   ],
   "note": "False as stated because of C11; proved for the implemented language of all patterns, and for the regular language under lead_ok."
  },
  {
   "property": "C19",
   "status": "partial",
   "theorems": [
    "C19_longest_match_refuted",
    "C19_longest_match_partial"
   ],
   "note": "False as stated because of the lost characters of C17; proved under resumable."
  },
  {
   "property": "C20",
   "status": "partial",
   "theorems": [
    "C20_token_if_match_refuted",
    "C20_token_if_match_partial",
    "C20_token_if_match_steady_partial",
    "C20_steady_is_resumable"
   ],
   "note": "False as stated: patterns a, abc on `ab` give no token. Proved: exactly what a first None means, and the property under steady."
  },
  {
   "property": "C21",
   "status": "partial",
   "theorems": [
    "C21_stays_ended_refuted",
    "C21_stays_ended_partial",
    "C21_tokens_end_with_match_partial"
   ],
   "note": "False as stated: pattern a on `?a` gives None, then the token `?a`. Proved: None is final if the rest could be fed; every token ends with a match of its kind."
  },
  {
   "property": "C22",
   "status": "proved",
   "theorems": [
    "C22_lexing_never_panics"
   ],
   "note": "User functions are assumed not to panic."
  },
  {
   "property": "C23",
   "status": "proved",
   "theorems": [
    "C23_kind_from_source"
   ],
   "note": ""
  },
  {
   "property": "C24",
   "status": "proved",
   "theorems": [
    "C24_cached_peekable_refines",
    "C24_with_peek_mut"
   ],
   "note": ""
  },
  {
   "property": "C25",
   "status": "proved",
   "theorems": [
    "C25_cautious_map_while",
    "C25_cautious_take_while"
   ],
   "note": ""
  },
  {
   "property": "C46",
   "status": "proved",
   "theorems": [
    "C46_feed_str_is_feed",
    "C46_empty_text"
   ],
   "note": ""
  },
  {
   "property": "C26",
   "status": "proved",
   "theorems": [
    "C26_build_exact",
    "C26_build_rules",
    "C26_add_rules"
   ],
   "note": ""
  },
  {
   "property": "C27",
   "status": "proved",
   "theorems": [
    "C27_first_exact",
    "C27_first_variable_exact"
   ],
   "note": "Bodies are not empty: built grammars write the empty body as one epsilon, and follow_set asks only about non-empty suffixes."
  },
  {
   "property": "C28",
   "status": "proved",
   "theorems": [
    "C28_follow_exact"
   ],
   "note": "Sentential forms of every variable of the grammar, reachable or not, as the property says."
  },
  {
   "property": "C29",
   "status": "proved",
   "theorems": [
    "C29_first_total",
    "C29_first_body_total",
    "C29_follow_total"
   ],
   "note": ""
  },
  {
   "property": "C30",
   "status": "proved",
   "theorems": [
    "C30_cursors"
   ],
   "note": "With C32 (no panic) the unreachable! branches of the automaton construction are never run; those of new_slr are covered by the theorems about Slr::new."
  },
  {
   "property": "C31",
   "status": "proved",
   "theorems": [
    "C31_closure_least",
    "C31_closure_total"
   ],
   "note": ""
  },
  {
   "property": "C32",
   "status": "proved",
   "theorems": [
    "C32_construction_total"
   ],
   "note": ""
  },
  {
   "property": "C33",
   "status": "proved",
   "theorems": [
    "C33_automaton_lr0"
   ],
   "note": ""
  },
  {
   "property": "C34",
   "status": "partial",
   "theorems": [
    "C34_one_state_per_item_set_refuted",
    "C34_one_state_per_item_set_partial"
   ],
   "note": "False: a state is looked up only among the processed ones, so a pending state can be created twice. Proved instead: states with the same items are interchangeable."
  },
  {
   "property": "C45",
   "status": "proved",
   "theorems": [
    "C45_display",
    "C45_one_bullet"
   ],
   "note": ""
  },
  {
   "property": "C35",
   "status": "partial",
   "theorems": [
    "C35_slr_new_refuted",
    "C35_slr_new_partial",
    "C35_succeeds_partial",
    "C35_conflicts_found"
   ],
   "note": "False as stated: `S -> a b | a c` has no conflict and is rejected, because two items that shift the same terminal count as a conflict. Proved: the exact condition up to the FOLLOW entry of the start variable (C108 says when that depends on the hash order), success when no state reads a terminal in two items, and that success rules out conflicts on terminals."
  },
  {
   "property": "C36",
   "status": "partial",
   "theorems": [
    "C36_table_refuted",
    "C36_table_partial"
   ],
   "note": "False as stated: for `S -> a` no row accepts. Proved: shifts, reduces, gotos and the uniqueness of actions exactly as stated; accepts also need a FOLLOW entry of the start variable."
  },
  {
   "property": "C37",
   "status": "partial",
   "theorems": [
    "C37_derivation_refuted",
    "C37_derivation_partial",
    "C37_leaves_partial"
   ],
   "note": "False as stated: `S -> a S c | b` accepts `a b`. Proved for grammars without epsilon whose start variable occurs only at the front of sentential forms; for all grammars the leaves are a final part of the input. C110 says exactly which grammars are parsed exactly."
  },
  {
   "property": "C38",
   "status": "partial",
   "theorems": [
    "C38_sentences_refuted",
    "C38_sentences_partial"
   ],
   "note": "False as stated: `S -> S b | A; A -> a` rejects `a`, `S -> a` panics on `a`. Proved without epsilon for trees that end with a token below the root, when the start variable has a FOLLOW entry. C110 says exactly which grammars are parsed exactly."
  },
  {
   "property": "C39",
   "status": "partial",
   "theorems": [
    "C39_no_panic_refuted",
    "C39_no_panic_partial",
    "C39_panic_reason_partial"
   ],
   "note": "False as stated: `S -> a` panics on `a`. Proved without epsilon for grammars without useless variables in which every variable is followed by a terminal; without epsilon the reasons for a panic are listed; C107 has the exact inputs that panic."
  },
  {
   "property": "C40",
   "status": "partial",
   "theorems": [
    "C40_terminates_refuted",
    "C40_terminates_partial"
   ],
   "note": "False as stated: `S -> A A a | b A a; A -> epsilon` runs forever on `b a`. Proved without epsilon when all variables are reachable or no unit rules form a cycle; C70 has the exact condition for all grammars, C107 the exact inputs without epsilon."
  },
  {
   "property": "C41",
   "status": "partial",
   "theorems": [
    "C41_unambiguous_refuted",
    "C41_unambiguous_partial",
    "C41_variable_partial",
    "C41_ended_partial"
   ],
   "note": "False as stated: conflicts at the end of the input are not detected. Proved without epsilon for variables that are followed by a terminal, and for trees that end with a token."
  },
  {
   "property": "C42",
   "status": "partial",
   "theorems": [
    "C42_order_refuted",
    "C42_order_partial",
    "C42_entry"
   ],
   "note": "False as stated: Ok or panic, and Err or panic, can depend on the order. Proved when the FOLLOW entry of the start variable does not depend on it, with Err and panic not told apart. C108 says exactly when it depends on the order."
  },
  {
   "property": "C43",
   "status": "partial",
   "theorems": [
    "C43_whole_text_refuted",
    "C43_tokens_partial",
    "C43_whole_text_partial"
   ],
   "note": "False as stated: a lexical error is taken for the end of the input. Proved: the tokens before the first None end with the leaves of the tree; for steady patterns they tile a first part of the text and no pattern matches a first part of the rest."
  },
  {
   "property": "C44",
   "status": "proved",
   "theorems": [
    "C44_payloads"
   ],
   "note": "terminal_eq is assumed to be an equivalence."
  },
  {
   "property": "C47",
   "status": "proved",
   "theorems": [
    "C47_exact",
    "C47_only"
   ],
   "note": ""
  },
  {
   "property": "C48",
   "status": "proved",
   "theorems": [
    "C48_accepted",
    "C48_one_reading"
   ],
   "note": ""
  },
  {
   "property": "C49",
   "status": "proved",
   "theorems": [
    "C49_union_built",
    "C49_union"
   ],
   "note": "When matching returns; see C12 for when it does."
  },
  {
   "property": "C50",
   "status": "proved",
   "theorems": [
    "C50_variables",
    "C50_terminals",
    "C50_new_rule"
   ],
   "note": ""
  },
  {
   "property": "C51",
   "status": "partial",
   "theorems": [
    "C51_nfa_text",
    "C51_labels_closed_refuted",
    "C51_labels_closed_partial"
   ],
   "note": "The lines are proved. False that labels are closed: a double quote in a literal is not escaped. Proved for literals without a double quote."
  },
  {
   "property": "C52",
   "status": "proved",
   "theorems": [
    "C52_cfsm_text"
   ],
   "note": ""
  },
  {
   "property": "C53",
   "status": "partial",
   "theorems": [
    "C53_prefix_refuted",
    "C53_prefix_partial",
    "C53_lists_partial"
   ],
   "note": "False with epsilon rules and for variables that derive no text. Proved without epsilon when all reachable variables are productive."
  },
  {
   "property": "C54",
   "status": "partial",
   "theorems": [
    "C54_steps_partial"
   ],
   "note": "Proved for the grammars of C40_terminates_partial; C40_terminates_refuted has grammars on which the parser never ends. C70: for every grammar the same bound, or no end."
  },
  {
   "property": "C55",
   "status": "partial",
   "theorems": [
    "C55_place_refuted",
    "C55_place_partial",
    "C55_one_place"
   ],
   "note": "False: the error of [a-]b is one token late, and unclosed parentheses or brackets are reported at the first column. Proved: one error, and for each kind its exact position relative to the place where the text breaks."
  },
  {
   "property": "C56",
   "status": "proved",
   "theorems": [
    "C56_text",
    "C56_lines"
   ],
   "note": ""
  },
  {
   "property": "C57",
   "status": "partial",
   "theorems": [
    "C57_viable_refuted",
    "C57_alive",
    "C57_lexer_alive",
    "C57_begun_partial",
    "C57_viable_partial"
   ],
   "note": "False: a? can be fed aa, because rounds are counted when a repetition is left. Proved: exactly which texts leave a run, for every regex; these are the beginnings of matches if no repetition has an upper bound, no literal is empty and leading groups are as in C11."
  },
  {
   "property": "C58",
   "status": "partial",
   "theorems": [
    "C58_munch_partial",
    "C58_calls_partial",
    "C58_unique"
   ],
   "note": "False without a condition because of the lost characters of C17 (C17_tokens_tile_refuted, C19_longest_match_refuted). Proved for patterns that stay matched as long as they can be fed, with termination if no repeated group matches the empty text."
  },
  {
   "property": "C59",
   "status": "partial",
   "theorems": [
    "C59_tokens_partial",
    "C59_verdict_partial"
   ],
   "note": "Proved for patterns as in C58 and grammars as in C37 to C40; the counterexamples there (C17, C37_derivation_refuted, C38_sentences_refuted, C39_no_panic_refuted, C40_terminates_refuted) are counterexamples here. C112 has the exact outcome for every grammar without epsilon."
  },
  {
   "property": "C60",
   "status": "proved",
   "theorems": [
    "C60_expr"
   ],
   "note": ""
  },
  {
   "property": "C61",
   "status": "proved",
   "theorems": [
    "C61_calls",
    "C61_unique",
    "C61_results_partial"
   ],
   "note": "C61_calls and C61_unique hold for all patterns; C61_results_partial adds termination under the condition of C12."
  },
  {
   "property": "C62",
   "status": "proved",
   "theorems": [
    "C62_matching_ends_exactly",
    "C62_matching_iff",
    "C62_matching_ends_regular",
    "C62_loops_never_spin",
    "C62_lexing_never_ends",
    "C62_lexing_ends",
    "C62_lexing_iff"
   ],
   "note": ""
  },
  {
   "property": "C63",
   "status": "proved",
   "theorems": [
    "C63_tokens",
    "C63_one_list",
    "C63_regex"
   ],
   "note": "C63_regex covers the texts whose tokens contain no panic."
  },
  {
   "property": "C64",
   "status": "proved",
   "theorems": [
    "C64_read",
    "C64_panics",
    "C64_rejected",
    "C64_unchecked",
    "C64_add_token"
   ],
   "note": ""
  },
  {
   "property": "C65",
   "status": "proved",
   "theorems": [
    "C65_machine",
    "C65_one_move"
   ],
   "note": "A failure at a row without entries is Err or a panic depending on the numbers of the states (C42); all other failures are told apart."
  },
  {
   "property": "C66",
   "status": "proved",
   "theorems": [
    "C66_no_empty_variables"
   ],
   "note": ""
  },
  {
   "property": "C67",
   "status": "partial",
   "theorems": [
    "C67_small_automaton_refuted",
    "C67_between",
    "C67_own_state"
   ],
   "note": "False as stated: i -> a (i+1) | b (i+1) has 2^n states. Proved: bounds on the number of states by the shortest words, for every grammar."
  },
  {
   "property": "C68",
   "status": "proved",
   "theorems": [
    "C68_whole",
    "C68_never_ends"
   ],
   "note": ""
  },
  {
   "property": "C69",
   "status": "proved",
   "theorems": [
    "C69_calls_return",
    "C69_calls_panic",
    "C69_calls_hang",
    "C69_harmless"
   ],
   "note": ""
  },
  {
   "property": "C70",
   "status": "proved",
   "theorems": [
    "C70_linear",
    "C70_circles"
   ],
   "note": ""
  },
  {
   "property": "C71",
   "status": "proved",
   "theorems": [
    "C71_matching",
    "C71_lexing",
    "C71_other_laws_refuted"
   ],
   "note": ""
  },
  {
   "property": "C72",
   "status": "proved",
   "theorems": [
    "C72_build",
    "C72_parse",
    "C72_merging_refuted"
   ],
   "note": ""
  },
  {
   "property": "C73",
   "status": "proved",
   "theorems": [
    "C73_same_results",
    "C73_no_dangling",
    "C73_refs_exist"
   ],
   "note": "Memory is modelled by one block per grammar that nothing changes before it is freed; the references follow_set (safe code) returns are any that point to the right terminal. Aliasing rules beyond that are not modelled."
  },
  {
   "property": "C74",
   "status": "proved",
   "theorems": [
    "C74_builds",
    "C74_new",
    "C74_no_clash",
    "C74_exact",
    "C74_all_inputs",
    "C74_unambiguous"
   ],
   "note": "The way to use the parser under which C35 to C40 hold in full: their counterexamples all come from the missing end of the input. Grammars with epsilon are left out (C37 to C40 fail for them in other ways)."
  },
  {
   "property": "C75",
   "status": "proved",
   "theorems": [
    "C75_text"
   ],
   "note": "The condition on the patterns is the one of C58 (steady, no repeated group that matches the empty text)."
  },
  {
   "property": "C76",
   "status": "proved",
   "theorems": [
    "C76_steady",
    "C76_munch"
   ],
   "note": ""
  },
  {
   "property": "C77",
   "status": "partial",
   "theorems": [
    "C77_linear_refuted",
    "C77_same",
    "C77_exact",
    "C77_quadratic",
    "C77_twice_partial"
   ],
   "note": "False as stated: patterns a, a*b on a^n c read n(n+3)/2 characters and more. Proved: the exact count of every call, at most m(m+1)/2 in all, and at most 2m-1 for patterns as in C58 and C76."
  },
  {
   "property": "C78",
   "status": "proved",
   "theorems": [
    "C78_image",
    "C78_rewritten",
    "C78_printed"
   ],
   "note": ""
  },
  {
   "property": "C79",
   "status": "proved",
   "theorems": [
    "C79_result",
    "C79_grammar",
    "C79_automaton",
    "C79_token",
    "C79_leaves",
    "C79_builders"
   ],
   "note": "WSymbol writes its parts with {:?} in both forms (Flat); both texts of an automaton are covered."
  },
  {
   "property": "C80",
   "status": "proved",
   "theorems": [
    "C80_parsers"
   ],
   "note": ""
  },
  {
   "property": "C81",
   "status": "partial",
   "theorems": [
    "C81_fewer_refuted",
    "C81_fewer_partial"
   ],
   "note": "False as stated only where the FOLLOW entry of the start variable depends on the hash order. Proved otherwise, for all grammars and orders; C108 says exactly which grammars these are."
  },
  {
   "property": "C82",
   "status": "proved",
   "theorems": [
    "C82_more_rules"
   ],
   "note": ""
  },
  {
   "property": "C83",
   "status": "partial",
   "theorems": [
    "C83_unused_refuted",
    "C83_unused_partial"
   ],
   "note": "False as stated: 0 -> a panics on a, with the unusable rule 1 -> 0 b it accepts a; other unusable rules make Slr::new panic. Proved without epsilon when Slr::new succeeds for both and the start variable has a FOLLOW entry."
  },
  {
   "property": "C84",
   "status": "proved",
   "theorems": [
    "C84_order"
   ],
   "note": ""
  },
  {
   "property": "C85",
   "status": "partial",
   "theorems": [
    "C85_shadowed_refuted",
    "C85_shadowed_partial"
   ],
   "note": "False as stated: with a before it, a{1} still reads on and the tokens of aa are lost. Proved when all that can be read along the pattern can be read along another."
  },
  {
   "property": "C86",
   "status": "proved",
   "theorems": [
    "C86_kinds"
   ],
   "note": ""
  },
  {
   "property": "C87",
   "status": "proved",
   "theorems": [
    "C87_restart",
    "C87_parts"
   ],
   "note": ""
  },
  {
   "property": "C88",
   "status": "proved",
   "theorems": [
    "C88_answers_of_any_orders",
    "C88_tokens_of_any_orders"
   ],
   "note": ""
  },
  {
   "property": "C89",
   "status": "proved",
   "theorems": [
    "C89_room_enough",
    "C89_room_needed",
    "C89_room_short",
    "C89_no_room"
   ],
   "note": ""
  },
  {
   "property": "C90",
   "status": "proved",
   "theorems": [
    "C90_stack",
    "C90_tree",
    "C90_high"
   ],
   "note": ""
  },
  {
   "property": "C91",
   "status": "proved",
   "theorems": [
    "C91_front_end",
    "C91_one_outcome"
   ],
   "note": ""
  },
  {
   "property": "C92",
   "status": "proved",
   "theorems": [
    "C92_every_regular",
    "C92_only_regular",
    "C92_textbook_regular",
    "C92_replacement"
   ],
   "note": ""
  },
  {
   "property": "C93",
   "status": "proved",
   "theorems": [
    "C93_written",
    "C93_tokens",
    "C93_joined",
    "C93_trees"
   ],
   "note": ""
  },
  {
   "property": "C94",
   "status": "proved",
   "theorems": [
    "C94_states",
    "C94_list",
    "C94_pattern",
    "C94_lexer"
   ],
   "note": ""
  },
  {
   "property": "C95",
   "status": "proved",
   "theorems": [
    "C95_slr_new",
    "C95_automaton",
    "C95_follow",
    "C95_first"
   ],
   "note": ""
  },
  {
   "property": "C96",
   "status": "proved",
   "theorems": [
    "C96_left_linear",
    "C96_every_automaton",
    "C96_right_linear",
    "C96_right_linear_end"
   ],
   "note": ""
  },
  {
   "property": "C97",
   "status": "proved",
   "theorems": [
    "C97_new",
    "C97_trees",
    "C97_exact"
   ],
   "note": ""
  },
  {
   "property": "C98",
   "status": "proved",
   "theorems": [
    "C98_munch",
    "C98_token",
    "C98_nothing",
    "C98_end"
   ],
   "note": "Necessity and sufficiency of the conditions of C20, C21 and C58."
  },
  {
   "property": "C99",
   "status": "partial",
   "theorems": [
    "C99_work_refuted",
    "C99_same",
    "C99_first_turns_partial",
    "C99_follow_turns_partial",
    "C99_closure_turns"
   ],
   "note": "The number of bodies scanned can be exponential (refuted). The number of turns of the loops is polynomial (proved)."
  },
  {
   "property": "C100",
   "status": "proved",
   "theorems": [
    "C100_builds",
    "C100_trees",
    "C100_exact",
    "C100_exact_builds",
    "C100_slr"
   ],
   "note": "For all grammars; whether Slr::new takes the result is C35, and C100_slr gives a way that works for all that are SLR(1) then."
  },
  {
   "property": "C101",
   "status": "proved",
   "theorems": [
    "C101_runs",
    "C101_lexer",
    "C101_same",
    "C101_work",
    "C101_unsettled"
   ],
   "note": "The condition is sufficient, not necessary; C101_unsettled is the pattern of C14, which has exponentially many runs and does not meet it."
  },
  {
   "property": "C102",
   "status": "proved",
   "theorems": [
    "C102_states",
    "C102_moves",
    "C102_accepts"
   ],
   "note": "Valid items and rightmost derivations are defined without the automaton; the runs are those of the machine of C65, which is the parser. Closed under the global context."
  },
  {
   "property": "C103",
   "status": "proved",
   "theorems": [
    "C103_regex",
    "C103_errors",
    "C103_inputs",
    "C103_runs"
   ],
   "note": "Which characters are printable is a parameter. Closed under the global context."
  },
  {
   "property": "C104",
   "status": "proved",
   "theorems": [
    "C104_silent",
    "C104_text",
    "C104_tells",
    "C104_token"
   ],
   "note": "What is written before a panic or an endless loop is not kept in the model. Closed under the global context."
  },
  {
   "property": "C105",
   "status": "proved",
   "theorems": [
    "C105_counters",
    "C105_lexer",
    "C105_runs",
    "C105_positions"
   ],
   "note": "Closed under the global context. The samples reach the bounds."
  },
  {
   "property": "C106",
   "status": "proved",
   "theorems": [
    "C106_map",
    "C106_pointers",
    "C106_parser",
    "C106_finer",
    "C106_example",
    "C106_needed"
   ],
   "note": "Closed under the global context. Entries are kept in the order they were inserted in; which of them a search looks at is a parameter that has to contain those with the hash searched for."
  },
  {
   "property": "C107",
   "status": "proved",
   "theorems": [
    "C107_outcomes",
    "C107_some_input"
   ],
   "note": "Closed under the global context. The numbers of the states are those of the automaton that was built; they depend on the hash order."
  },
  {
   "property": "C108",
   "status": "proved",
   "theorems": [
    "C108_entries",
    "C108_new",
    "C108_tree",
    "C108_no_tree"
   ],
   "note": "Closed under the global context. The orders are those of the model's `HashOrder`: any permutation at each iteration."
  },
  {
   "property": "C109",
   "status": "proved",
   "theorems": [
    "C109_language",
    "C109_more_before"
   ],
   "note": "Closed under the global context. C108 says when the first case, no input at all, can occur."
  },
  {
   "property": "C110",
   "status": "proved",
   "theorems": [
    "C110_parser",
    "C110_grammar"
   ],
   "note": "Closed under the global context. Which inputs outside the language give an error, a panic or no end is in C107."
  },
  {
   "property": "C111",
   "status": "proved",
   "theorems": [
    "C111_runs",
    "C111_lexer",
    "C111_every",
    "C111_reached",
    "C111_all",
    "C111_all_lexer"
   ],
   "note": "Closed under the global context. Completes C14: different runs are polynomially many there, all runs exponentially many here."
  },
  {
   "property": "C112",
   "status": "proved",
   "theorems": [
    "C112_outcomes",
    "C112_exact"
   ],
   "note": "Closed under the global context. C98 says that steady is needed for maximal munch. For all other patterns and grammars C68 has the result as a machine."
  },
  {
   "property": "C113",
   "status": "proved",
   "theorems": [
    "C113_parser",
    "C113_grammar"
   ],
   "note": "Closed under the global context. C110 has the case in which every reachable variable derives a text; there the absence of epsilon rules is part of the result."
  },
  {
   "property": "C114",
   "status": "proved",
   "theorems": [
    "C114_context_free"
   ],
   "note": "Closed under the global context. Without epsilon rules C109 has a simple grammar that gives the trees as well."
  },
  {
   "property": "C115",
   "status": "proved",
   "theorems": [
    "C115_pump",
    "C115_not_three"
   ],
   "note": "Closed under the global context. A consequence of C114; the number k comes from the grammar made there."
  },
  {
   "property": "C116",
   "status": "proved",
   "theorems": [
    "C116_matching",
    "C116_matching_known",
    "C116_lexing",
    "C116_lexing_known",
    "C116_parsing",
    "C116_parsing_known"
   ],
   "note": "Closed under the global context. The fuel of the model is the number of turns of the loop of each closure and of each loop of the parser."
  },
  {
   "property": "C117",
   "status": "proved",
   "theorems": [
    "C117_matching",
    "C117_matching_safe",
    "C117_lexing",
    "C117_lexing_safe",
    "C117_parsing_safe"
   ],
   "note": "Closed under the global context. Exact where the condition of C12 is only sufficient."
  },
  {
   "property": "C118",
   "status": "proved",
   "theorems": [
    "C118_same",
    "C118_same_calls",
    "C118_runs",
    "C118_least",
    "C118_matching",
    "C118_exponential",
    "C118_linear",
    "C118_lexing",
    "C118_lexing_settled"
   ],
   "note": "Closed under the global context. Not counted: the work of the hash tables besides hashing, and the iterator over the input."
  },
  {
   "property": "C119",
   "status": "proved",
   "theorems": [
    "C119_some_text",
    "C119_hangs",
    "C119_written",
    "C119_same",
    "C119_same_any",
    "C119_munch",
    "C119_end",
    "C119_lexing",
    "C119_hidden",
    "C119_overlap"
   ],
   "note": "Closed under the global context. Where C11, C58, C21, C84 and C85 hold is thereby computable. The condition on being alphabetic is met by every set that changes at finitely many places, as the one of Unicode does."
  },
  {
   "property": "C120",
   "status": "proved",
   "theorems": [
    "C120_outcomes",
    "C120_any_input",
    "C120_tokens",
    "C120_safe"
   ],
   "note": "Closed under the global context. C107 gives the conditions in terms of derivations for grammars without epsilon rules; here the grammar is any and the answer is computed."
  },
  {
   "property": "C121",
   "status": "proved",
   "theorems": [
    "C121_exact",
    "C121_sound",
    "C121_told"
   ],
   "note": "Closed under the global context. For grammars that have both epsilon rules and useless variables only one direction holds (C121_sound; C121_gap is an exact parser the function rejects). The parser of pango-parser/examples/expr.rs is computed to be exact."
  },
  {
   "property": "C122",
   "status": "proved",
   "theorems": [
    "C122_built",
    "C122_exact",
    "C122_sets"
   ],
   "note": "Closed under the global context. C108, C110 and C113 give the conditions; here they are decided. For exactness, grammars that have both epsilon rules and useless variables are not covered."
  },
  {
   "property": "C123",
   "status": "proved",
   "theorems": [
    "C123_slr",
    "C123_wrapped",
    "C123_exact",
    "C123_steady",
    "C123_sets"
   ],
   "note": "Closed under the global context. C74 and C72 give the conditions; here they are decided. C123_steady is one direction: the function may return false although no order matters."
  },
  {
   "property": "C124",
   "status": "proved",
   "theorems": [
    "C124_matters",
    "C124_computed",
    "C124_trees"
   ],
   "note": "Closed under the global context. As in C42, Err and a panic of parse count as the same result. With epsilon rules the condition is exact, but whether some input gets a tree is computed from a table only (C120)."
  },
  {
   "property": "C125",
   "status": "proved",
   "theorems": [
    "C125_conditions",
    "C125_texts",
    "C125_front_end"
   ],
   "note": "Closed under the global context. The answers are sufficient, not necessary, for a right front end. The functions take the code points at which is_alphabetic changes, as in C119. That only the end character makes the end token is a condition on the token functions and stays a hypothesis here; C126 computes it for tokens that are not made of their text."
  },
  {
   "property": "C126",
   "status": "proved",
   "theorems": [
    "C126_kinds",
    "C126_front_end",
    "C126_computed"
   ],
   "note": "Closed under the global context. As in C125, a positive answer is sufficient, not necessary, for a right front end; the answers about the tokens of the patterns are exact."
  },
  {
   "property": "C127",
   "status": "proved",
   "theorems": [
    "C127_conditions",
    "C127_alike",
    "C127_parsers"
   ],
   "note": "Closed under the global context. Tokens made of their text are left out, as functions cannot be compared; patterns that miss the longest match (C58) are left out too."
  },
  {
   "property": "C128",
   "status": "proved",
   "theorems": [
    "C128_found",
    "C128_patterns",
    "C128_lexers"
   ],
   "note": "Closed under the global context. The cut points of is_alphabetic are given, as in C119; for lexers the conditions of C127 are assumed, which are themselves computed."
  },
  {
   "property": "C129",
   "status": "proved",
   "theorems": [
    "C129_shortest",
    "C129_munch"
   ],
   "note": "Closed under the global context. The cut points of is_alphabetic are given, as in C119."
  },
  {
   "property": "C130",
   "status": "proved",
   "theorems": [
    "C130_shortest"
   ],
   "note": "Closed under the global context. The cut points of is_alphabetic are given, as in C119."
  },
  {
   "property": "C131",
   "status": "proved",
   "theorems": [
    "C131_shortest",
    "C131_texts"
   ],
   "note": "Closed under the global context. The cut points of is_alphabetic are given, as in C119; tokens made of their text are left out, as in C127."
  }
 ]
}