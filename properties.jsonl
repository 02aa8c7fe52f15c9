{"id": "C01", "title": "Regex print/parse round-trip", "statement": "Writing any regex of the documented grammar as text (the way the project's own proptest printer writes it) and giving that text to the regex parser yields exactly that regex back: same structure, same literals, classes, groups, ranges, negations and quantifier bounds.", "quantifier": "every regex syntax tree of the documented grammar, of any depth and width, every char and every u32 quantifier bound", "why_tests_cant": "Trees are unbounded and the existing proptest only checks that parsing does not return an error, on 10000 samples.", "anchors": ["pango-lexer/src/regex/parser.rs: Parser::parse, expression, sub_expression, group, match_, match_item, character_group, character_group_item", "pango-lexer/src/regex/tokenizer.rs: Tokenizer::next", "pango-lexer/src/regex/tests/proptest.rs: ToString impls"]}
{"id": "C02", "title": "A successfully added pattern has been interpreted completely", "statement": "If adding a token pattern succeeds, then the whole pattern text was interpreted: the regex that was built, written back as tokens, is the complete token sequence of the pattern; nothing at the end of the pattern is silently dropped.", "quantifier": "every pattern text", "why_tests_cant": "Patterns are unbounded; a dropped tail is only visible on the particular patterns that trigger it.", "anchors": ["pango-lexer/src/regex/parser.rs: Parser::parse", "pango-lexer/src/lexer/mod.rs: LexerGenerator::add_token"]}
{"id": "C03", "title": "Adding a pattern returns Ok or Err and never panics", "statement": "with_token / with_token_unit / with_token_map on any pattern text return Ok(builder) or Err(parse errors), as documented under `# Fails`; they never panic, in builds with or without overflow checks.", "quantifier": "every pattern text, both build profiles", "why_tests_cant": "The set of patterns is infinite; panics hide in rare syntactic corner cases and in numeric overflow.", "anchors": ["pango-lexer/src/lexer/mod.rs: LexerGenerator::add_token", "pango-lexer/src/regex/parser.rs: sub_expression", "pango-lexer/src/fsm/nfa/compiler.rs: Compiler::expr", "pango-lexer/src/regex/tokenizer.rs: take_next_decimals_and_convert_to_u32"]}
{"id": "C04", "title": "Regex parsing terminates on every pattern", "statement": "Tokenizing and parsing any pattern text terminates: the tokenizer yields at most one token per character, and the recursive-descent parser always returns a result.", "quantifier": "every pattern text", "why_tests_cant": "Termination for all inputs cannot be established by running finitely many of them.", "anchors": ["pango-lexer/src/regex/parser.rs", "pango-lexer/src/regex/tokenizer.rs: Iterator for Tokenizer"]}
{"id": "C05", "title": "Regex token spans tile the pattern", "statement": "The spans reported for regex tokens (and therefore the positions printed in parse errors) tile the pattern: the first token starts at 0, each token starts where the previous one ended, each span is non-empty, and the last one ends at the pattern length.", "quantifier": "every pattern text", "why_tests_cant": "Span bookkeeping goes through a cached peekable iterator; wrong spans only appear for particular truncated escapes or quantifiers.", "anchors": ["pango-lexer/src/regex/tokenizer.rs: get_token_end_cursor_pos", "pango-lexer/src/iter/peekable.rs: CachedPeekable::current", "pango-lexer/src/regex/parser.rs: get_current_token_position"]}
{"id": "C06", "title": "Range quantifier bounds are read exactly or rejected", "statement": "For every n and m, the quantifiers {n}, {n,} and {n,m} denote exactly these numbers when they fit in 32 bits, and the pattern is rejected when a bound does not fit; a too large bound is never replaced by another number.", "quantifier": "all decimal digit strings, of any length, both build profiles", "why_tests_cant": "The number of digit strings is unbounded and overflow behaviour differs for only four values out of 2^32 and up.", "anchors": ["pango-lexer/src/regex/tokenizer.rs: handle_quantifier, take_next_decimals_and_convert_to_u32"]}
{"id": "C07", "title": "Unicode escapes denote exactly the written code point", "statement": "\\xHH and \\uHHHH consume exactly two / four hex digits and \\u{H...} the digits in braces; they denote the character with that code, whatever text follows the escape in the pattern.", "quantifier": "all hex digits and all continuations of the pattern", "why_tests_cant": "The following text is unbounded and the digits are too many to enumerate together with every continuation.", "anchors": ["pango-lexer/src/regex/tokenizer.rs: handle_unicode_escape_sequence, take_next_hexadecimals_and_convert_to_u32"]}
{"id": "C08", "title": "Escaped meta characters match themselves", "statement": "A pattern that is any text with every special character escaped by a backslash parses and its lexer pattern matches that text and only that text.", "quantifier": "every text over all characters", "why_tests_cant": "Texts are unbounded.", "anchors": ["pango-lexer/src/regex/tokenizer.rs: handle_escape_sequence", "pango-lexer/src/regex/parser.rs: match_item", "pango-lexer/src/fsm/nfa/sim.rs"]}
{"id": "C09", "title": "Character sets are the documented sets", "statement": "A character group matches exactly the union of its items (single characters, inclusive ranges, classes), a negated group exactly the complement, and \\D, \\W, \\S are the complements of \\d, \\w, \\s; the wildcard matches every character.", "quantifier": "every group and every character", "why_tests_cant": "The groups are unbounded and there are over a million characters.", "anchors": ["pango-lexer/src/regex/ast.rs: LiteralKind::contains, GroupedLiteralKind::contains", "pango-lexer/src/regex/tokenizer.rs: ClassKind::contains"]}
{"id": "C10", "title": "Compiled automata are well formed", "statement": "Building the lexer from any successfully added patterns never fails its own consistency check: every transition leads to an existing state, the start state is never re-entered, accepting states have no way out, and the number of states is at most linear in the size of the patterns (it does not depend on quantifier bounds).", "quantifier": "every list of patterns", "why_tests_cant": "Quantifies over all lists of all syntax trees.", "anchors": ["pango-lexer/src/fsm/nfa/compiler.rs: Compiler::expr, compile", "pango-lexer/src/fsm/nfa/model.rs: NfaBuilder::build, add_transition, add_quantified_state"]}
{"id": "C11", "title": "A pattern matches exactly its regular language", "statement": "Simulating the automaton of a regex on a text returns true exactly when the text belongs to the language of the regex (concatenation, alternation, groups, and the quantifiers *, +, ?, {n}, {n,}, {n,m} with their usual meaning).", "quantifier": "every regex and every text", "why_tests_cant": "Both regexes and texts are unbounded; the counters used for quantifiers make small samples unrepresentative.", "anchors": ["pango-lexer/src/fsm/nfa/compiler.rs: Compiler::expr", "pango-lexer/src/fsm/nfa/sim.rs: NfaSimulator::new, eps_closure, feed, simulate", "pango-lexer/src/fsm/nfa/model.rs: Nfa::eps_closure"]}
{"id": "C12", "title": "Matching terminates", "statement": "Feeding any text to the automaton of any regex terminates.", "quantifier": "every regex and every text", "why_tests_cant": "Non-termination cannot be observed by a finite test, and termination must hold for all regexes.", "anchors": ["pango-lexer/src/fsm/nfa/sim.rs: NfaSimulator::eps_closure"]}
{"id": "C13", "title": "Lexing does not depend on hash iteration order", "statement": "The answers of the simulator (accepting, can be fed, set of final states) and hence the produced tokens are the same for every iteration order the hash maps and hash sets may choose.", "quantifier": "every automaton, every text and every sequence of hash iteration orders", "why_tests_cant": "A test run exercises one random order.", "anchors": ["pango-lexer/src/fsm/nfa/sim.rs", "pango-lexer/src/fsm/nfa/model.rs: Transitions"]}
{"id": "C14", "title": "Simulator state stays bounded", "statement": "The number of runs kept by the simulator is bounded by a function of the pattern and the text length that is not exponential in the text length (duplicate runs are not kept).", "quantifier": "every regex and every text", "why_tests_cant": "Growth rates are asymptotic statements.", "anchors": ["pango-lexer/src/fsm/nfa/sim.rs: feed"]}
{"id": "C15", "title": "can_feed is exact about dead ends", "statement": "can_feed(c) is false exactly when feeding c leaves the simulator with no live run; once that happened, no continuation of the text is accepted.", "quantifier": "every automaton, every history of fed characters, every next character and every continuation", "why_tests_cant": "Ranges over all histories and all continuations.", "anchors": ["pango-lexer/src/fsm/nfa/sim.rs: can_feed, feed"]}
{"id": "C16", "title": "Tokens are non-empty, so lexing makes progress", "statement": "Every token returned by the lexer has non-empty source text, so at most as many tokens as input characters are ever produced, even for patterns that match the empty text.", "quantifier": "every list of patterns and every input", "why_tests_cant": "An infinite stream of empty tokens is a liveness failure over all inputs.", "anchors": ["pango-lexer/src/lexer/mod.rs: Iterator for Lexer", "pango-lexer/src/lexer/input.rs"]}
{"id": "C17", "title": "Tokens tile the input from the left", "statement": "The tokens produced before the first None tile a prefix of the input: the first starts at 0, each starts where the previous one ended, and the source text of each token is exactly the input between its reported positions.", "quantifier": "every list of patterns, every input, every number of calls", "why_tests_cant": "Ranges over whole call histories and unbounded inputs; push-back of unaccepted characters is stateful.", "anchors": ["pango-lexer/src/lexer/input.rs: InputIter::next, consume_token, accept_suffix", "pango-lexer/src/lexer/mod.rs: Iterator for Lexer"]}
{"id": "C18", "title": "The kind of a token is the first declared pattern matching it", "statement": "The source text of a returned token belongs to the language of the pattern of its kind, and no pattern declared earlier matches that source text.", "quantifier": "every list of patterns and every input", "why_tests_cant": "Ranges over all pattern lists and inputs.", "anchors": ["pango-lexer/src/lexer/mod.rs: Iterator for Lexer, add_token", "pango-lexer/src/fsm/nfa/sim.rs: get_current_final_states"]}
{"id": "C19", "title": "A returned token is a longest match", "statement": "When the lexer returns a token, no longer prefix of the remaining input is matched by any pattern.", "quantifier": "every list of patterns, every input, every position", "why_tests_cant": "Ranges over all prefixes of all inputs for all pattern lists.", "anchors": ["pango-lexer/src/lexer/mod.rs: Iterator for Lexer"]}
{"id": "C20", "title": "A token is returned whenever some prefix matches", "statement": "If some non-empty prefix of the remaining input is matched by some pattern, then the lexer returns a token instead of ending the stream.", "quantifier": "every list of patterns, every input, every position", "why_tests_cant": "Depends on where the input ends relative to partial matches; all inputs must be considered.", "anchors": ["pango-lexer/src/lexer/mod.rs: Iterator for Lexer (end-of-input branch)"]}
{"id": "C21", "title": "After the end the lexer stays ended", "statement": "Once the lexer has returned None, later calls return None as well, or at least never return a token whose text is not matched by the pattern of its kind.", "quantifier": "every list of patterns, every input, every number of further calls", "why_tests_cant": "Statement over arbitrary call histories.", "anchors": ["pango-lexer/src/lexer/mod.rs: Iterator for Lexer", "pango-lexer/src/lexer/input.rs: token_suffix"]}
{"id": "C22", "title": "Lexing never panics", "statement": "Calling next on a lexer built from successfully added patterns never panics: every accepting state has a registered token kind and every state the simulator is in exists.", "quantifier": "every list of patterns, every input, every number of calls", "why_tests_cant": "The expect calls are internal invariants over all reachable states.", "anchors": ["pango-lexer/src/lexer/mod.rs: expect calls in next", "pango-lexer/src/fsm/nfa/model.rs: get_state"]}
{"id": "C23", "title": "Token kinds are computed from the final token text", "statement": "For a token added with with_token_map, the kind of every returned token is the user function applied to exactly the token's source text (although the function may be called on shorter texts while munching).", "quantifier": "every list of patterns, every mapping function, every input", "why_tests_cant": "Quantifies over all user functions and inputs.", "anchors": ["pango-lexer/src/lexer/mod.rs: TokenKindGenerator, with_token_map, Iterator for Lexer"]}
{"id": "C24", "title": "The cached peekable iterator is the plain iterator plus the last item", "statement": "Any sequence of next, peek, next_if, next_if_eq, peek_mut and current calls on the cached peekable iterator returns what the same calls on the plain sequence of items return: peek never consumes, next_if consumes exactly when its condition holds, an item changed through peek_mut is delivered changed, and current is the last item consumed.", "quantifier": "every underlying iterator and every finite sequence of calls", "why_tests_cant": "Ranges over all call sequences.", "anchors": ["pango-lexer/src/iter/peekable.rs: CachedPeekable, Peekableable"]}
{"id": "C25", "title": "Cautious adapters take the longest prefix and nothing more", "statement": "cautious_map_while (cautious_take_while) yields exactly the mapped (taken) longest prefix of items satisfying the predicate and leaves the first failing item, and everything after it, in the iterator.", "quantifier": "every iterator and every predicate", "why_tests_cant": "Ranges over all iterators and predicates.", "anchors": ["pango-lexer/src/iter/cautious/map_while.rs", "pango-lexer/src/iter/cautious/take_while.rs"]}
{"id": "C26", "title": "Grammar::build accepts exactly the closed grammars", "statement": "GrammarBuilder::build returns a grammar exactly when a start variable was set and every variable used in a body, and the start variable itself, has at least one rule; otherwise it panics. A built grammar contains exactly the added rules, duplicates merged and empty bodies turned into a single epsilon.", "quantifier": "every sequence of builder calls", "why_tests_cant": "Ranges over all call sequences.", "anchors": ["pango-parser/src/grammar.rs: GrammarBuilder::add_rule, add_rules, build"]}
{"id": "C27", "title": "FIRST sets are exact", "statement": "For every body, the computed FIRST set contains a terminal exactly when some string derivable from the body starts with that terminal, and contains epsilon exactly when the body derives the empty string.", "quantifier": "every grammar (recursive, nullable, unproductive rules included), every body suffix, every hash iteration order", "why_tests_cant": "Grammars are unbounded; the work-list algorithm with dependency wake-ups depends on processing order.", "anchors": ["pango-parser/src/grammar.rs: first_bodies, first_body, first"]}
{"id": "C28", "title": "FOLLOW sets are exact", "statement": "The computed FOLLOW set of a variable contains a terminal exactly when some sentential form derivable from a variable of the grammar has that terminal directly after the variable; it contains nothing else.", "quantifier": "every grammar, every hash iteration order", "why_tests_cant": "Fixpoint over unbounded cyclic dependencies.", "anchors": ["pango-parser/src/grammar.rs: follow_set"]}
{"id": "C29", "title": "FIRST and FOLLOW computations terminate without panicking", "statement": "first and follow_set terminate and do not panic for every grammar accepted by build.", "quantifier": "every built grammar, every hash iteration order", "why_tests_cant": "Termination over all grammars.", "anchors": ["pango-parser/src/grammar.rs: first_bodies, follow_set"]}
{"id": "C30", "title": "Item cursors never rest on epsilon", "statement": "In every item of every state the cursor is inside the body and never points at an epsilon symbol, so the `unreachable!` branches are never executed.", "quantifier": "every grammar and every state of its automaton", "why_tests_cant": "Invariant over all reachable item sets of all grammars.", "anchors": ["pango-parser/src/cfsm/item.rs: ItemBody::from, advance, get_cursor_variable", "pango-parser/src/parser/table.rs: new_slr"]}
{"id": "C31", "title": "Item-set closure is the least closed set", "statement": "The closure of an item set contains the given items, contains an initial item for every rule of each variable some cursor points at, and contains nothing else.", "quantifier": "every grammar and every starting set of items, every hash iteration order", "why_tests_cant": "Fixpoint over unbounded grammars.", "anchors": ["pango-parser/src/cfsm/item.rs: ItemSet::from_incomplete_map"]}
{"id": "C32", "title": "Automaton construction terminates without panicking", "statement": "Cfsm::from_grammar terminates for every built grammar and its final consistency assertions hold (every transition target exists).", "quantifier": "every built grammar, every hash iteration order", "why_tests_cant": "Termination over all grammars; states are looked up only among processed ones, so duplicates are created on the way.", "anchors": ["pango-parser/src/cfsm/mod.rs: Cfsm::from_grammar, CfsmBuilder::build"]}
{"id": "C33", "title": "The automaton recognises exactly the LR(0) item sets", "statement": "The state reached from the start state by a sequence of symbols holds exactly the LR(0) items valid for this sequence: its item set is the iterated goto of the initial closure; a symbol has a transition exactly when some item has its cursor before it.", "quantifier": "every grammar and every sequence of symbols, every hash iteration order", "why_tests_cant": "Ranges over all paths of all automata.", "anchors": ["pango-parser/src/cfsm/mod.rs: from_grammar", "pango-parser/src/cfsm/item.rs: iter_by_cursor_symbol, advance"]}
{"id": "C34", "title": "One state per item set", "statement": "Different states of the automaton have different item sets (the canonical automaton is built).", "quantifier": "every grammar", "why_tests_cant": "All grammars and orders must be considered.", "anchors": ["pango-parser/src/cfsm/mod.rs: from_grammar (lookup in already added states only)"]}
{"id": "C35", "title": "Slr::new succeeds on every SLR(1) grammar", "statement": "Slr::new panics with `grammar is not SLR` only if the grammar really has a shift/reduce or reduce/reduce conflict under FOLLOW lookahead.", "quantifier": "every grammar", "why_tests_cant": "All grammars must be considered.", "anchors": ["pango-parser/src/parser/slr.rs: Slr::new", "pango-parser/src/parser/table.rs: new_slr, insert_action"]}
{"id": "C36", "title": "The parse table holds exactly the SLR actions", "statement": "When Slr::new succeeds, a state has a shift on a terminal exactly when an item has its cursor before that terminal, a reduce exactly for complete items and terminals in FOLLOW of their head, an accept at end of input exactly for complete items of the start variable, and gotos exactly for variables after a cursor; each (state, lookahead) has at most one action.", "quantifier": "every grammar accepted by Slr::new", "why_tests_cant": "Ranges over all grammars, states and lookaheads.", "anchors": ["pango-parser/src/parser/table.rs: new_slr, insert_action, insert_goto"]}
{"id": "C37", "title": "A successful parse is a derivation of the whole input", "statement": "If parse returns Ok(tree), the tree is a derivation tree of the grammar rooted at the start variable, and its leaves are exactly the input tokens (the children of each node being stored in reverse order).", "quantifier": "every grammar accepted by Slr::new and every token sequence", "why_tests_cant": "Ranges over all grammars and all inputs.", "anchors": ["pango-parser/src/parser/slr.rs: parse, handle_token", "pango-parser/src/parser/table.rs"]}
{"id": "C38", "title": "Every sentence is parsed", "statement": "If the input is a sentence of the grammar and Slr::new succeeded, parse returns Ok with its derivation tree.", "quantifier": "every grammar accepted by Slr::new and every sentence", "why_tests_cant": "Ranges over all grammars and all sentences.", "anchors": ["pango-parser/src/parser/slr.rs: parse", "pango-parser/src/grammar.rs: follow_set (no end marker)"]}
{"id": "C39", "title": "Parsing never panics", "statement": "parse returns Ok or Err for every token sequence; it never panics.", "quantifier": "every grammar accepted by Slr::new, every token sequence, every hash iteration order", "why_tests_cant": "Stack and table indexing depends on the whole history; the hash order decides state numbers.", "anchors": ["pango-parser/src/parser/slr.rs: handle_token expects and drain", "pango-parser/src/parser/table.rs: amount: body.get_body().len()"]}
{"id": "C40", "title": "Parsing terminates", "statement": "parse terminates on every finite token sequence.", "quantifier": "every grammar accepted by Slr::new and every token sequence", "why_tests_cant": "Non-termination cannot be tested.", "anchors": ["pango-parser/src/parser/slr.rs: parse"]}
{"id": "C41", "title": "Grammars accepted by Slr::new are unambiguous for the parser", "statement": "If Slr::new succeeds, a token sequence has at most one derivation tree.", "quantifier": "every grammar accepted by Slr::new and every token sequence", "why_tests_cant": "Ambiguity is undecidable in general; ranges over all derivations.", "anchors": ["pango-parser/src/parser/slr.rs: Slr::new", "pango-parser/src/parser/table.rs: insert_action"]}
{"id": "C42", "title": "Parsing does not depend on hash iteration order", "statement": "Whether Slr::new succeeds, and the result of parse (Ok tree, Err or panic), do not depend on the iteration order of hash maps and sets.", "quantifier": "every grammar, every token sequence, every pair of hash iteration orders", "why_tests_cant": "A test run exercises one random order.", "anchors": ["pango-parser/src/cfsm/mod.rs: from_grammar", "pango-parser/src/parser/table.rs: new_slr", "pango-parser/src/parser/slr.rs"]}
{"id": "C43", "title": "Ok from parse means the whole text was lexed", "statement": "If parse(lexer) returns Ok, the lexer consumed the whole input text; a lexical error is never treated as the end of the input.", "quantifier": "every lexer, every grammar, every input text", "why_tests_cant": "Composition of two stateful components over all inputs.", "anchors": ["pango-parser/src/parser/slr.rs: parse (input.next() == None is end of input)", "pango-lexer/src/lexer/mod.rs: Iterator for Lexer"]}
{"id": "C44", "title": "Terminal payloads do not influence parsing", "statement": "Two token sequences that are pairwise equal under the user's terminal_eq are both accepted or both rejected, and their trees have the same shape; the tree stores the actual tokens.", "quantifier": "every grammar, every pair of terminal_eq-related token sequences", "why_tests_cant": "Ranges over all payloads and inputs.", "anchors": ["pango-parser/src/parser/traits.rs: TerminalEq", "pango-parser/src/parser/table.rs: PartialEq for Terminal", "pango-parser/src/parser/slr.rs: handle_token"]}
{"id": "C45", "title": "Item display shows the cursor exactly once", "statement": "The textual form of an item (used by to_dot) contains the bullet exactly once, directly before the symbol at the cursor, or at the end for a complete item.", "quantifier": "every body and every cursor position up to the body length", "why_tests_cant": "Bodies are unbounded.", "anchors": ["pango-parser/src/cfsm/dot.rs: Display for ItemBody"]}
{"id": "C46", "title": "feed_str is feeding the characters one by one", "statement": "simulate(text) equals creating a simulator, feeding the characters one at a time and asking whether it accepts; on the empty text it equals the initial acceptance.", "quantifier": "every automaton and every text", "why_tests_cant": "Texts are unbounded.", "anchors": ["pango-lexer/src/fsm/traits.rs: Simulate::feed_str", "pango-lexer/src/fsm/nfa/sim.rs: simulate"]}
{"id": "C47", "title": "What the parser accepts without epsilon", "statement": "For grammars without epsilon whose start variable has a FOLLOW entry, parse returns Ok exactly for inputs that split into a part derived from a viable prefix after which a rule of the start variable may begin, and a derivation of that rule, which ends with a terminal; the tree returned is the derivation tree of the second part.", "quantifier": "every grammar without epsilon accepted by Slr::new with a FOLLOW entry for the start variable, every token sequence and tree", "why_tests_cant": "Grammars, inputs and trees are unbounded; the tests parse one grammar.", "anchors": ["pango-parser/src/parser/slr.rs: Slr::parse", "pango-parser/src/parser/table.rs: new_slr"]}
{"id": "C48", "title": "Exactly which patterns the regex parser accepts", "statement": "Whatever the spelling of the tokens, Parser::parse returns Ok(e) exactly if the token sequence is empty (and e is Empty), or is the token sequence of a regex e of the documented grammar with possibly empty alternatives whose last alternative is not empty, or is the token sequence of such a regex followed by a stray closing parenthesis and anything; in all other cases it returns Err. No token sequence is read in two ways.", "quantifier": "every pattern that tokenizes without panic, every regex tree", "why_tests_cant": "Patterns and trees are unbounded; the tests parse a handful of fixed patterns.", "anchors": ["pango-lexer/src/regex/parser.rs: Parser::parse, expression, sub_expression, group"]}
{"id": "C49", "title": "The automaton of several regexes is their union", "statement": "Nfa::from(Vec<Ast>) panics exactly if Nfa::from of one of the regexes does; otherwise it accepts a text exactly if one of the regexes, as implemented, matches it; with no regex it accepts nothing.", "quantifier": "every list of regexes, every text, every hash order", "why_tests_cant": "Lists of regexes and texts are unbounded.", "anchors": ["pango-lexer/src/fsm/nfa/compiler.rs: From<Vec<Ast>> for Nfa"]}
{"id": "C50", "title": "Grammar iterators are exact", "statement": "iter_variables yields every variable with a rule exactly once and nothing else; iter_terminals yields every terminal of a body exactly once and nothing else; add_rule answers true exactly if the rule was not added before, an empty body counting as epsilon.", "quantifier": "every sequence of builder calls, every hash order", "why_tests_cant": "Grammars are unbounded and the hash order changes between runs.", "anchors": ["pango-parser/src/grammar.rs: iter_variables, iter_terminals, add_rule"]}
{"id": "C51", "title": "The dot text of an automaton", "statement": "Nfa::to_dot consists of the fixed header, the ids of the final states in order, one line for every transition of the automaton and a closing brace, in every hash order; every label is closed by its second unescaped double quote.", "quantifier": "every automaton made with the builder, every hash order", "why_tests_cant": "Automata are unbounded; the tests never look at the text.", "anchors": ["pango-lexer/src/fsm/nfa/dot.rs: to_dot"]}
{"id": "C52", "title": "The dot text of the LR automaton", "statement": "Cfsm::to_dot consists of the fixed header, one line per state in order whose label lists every item of the state once, and one line for every transition.", "quantifier": "every grammar made with the builder, every hash order", "why_tests_cant": "Grammars are unbounded; the tests never look at the text.", "anchors": ["pango-parser/src/cfsm/dot.rs: to_dot, node_labels_dot, transitions_dot"]}
{"id": "C53", "title": "The parser stops at the first token that continues no sentence", "statement": "If no sentence of the grammar begins with the tokens u t, then Slr::parse on any token source that delivers u t returns the same failure whatever the source does afterwards: nothing after t is read and no tree is returned.", "quantifier": "every grammar accepted by Slr::new, every token prefix, every pair of token sources, every hash order", "why_tests_cant": "Grammars, prefixes and continuations are unbounded.", "anchors": ["pango-parser/src/parser/slr.rs: parse, handle_token"]}
{"id": "C54", "title": "Parsing takes linearly many steps", "statement": "The loop of Slr::parse turns at most (2n+1)(r+1)+1 times on n tokens, where r is the number of variables of the grammar.", "quantifier": "every grammar accepted by Slr::new, every token list, every hash order", "why_tests_cant": "A bound over all inputs of all grammars.", "anchors": ["pango-parser/src/parser/slr.rs: parse"]}
{"id": "C55", "title": "Regex errors are reported where the pattern breaks", "statement": "If Parser::parse fails it reports exactly one error, and its position is that of the first token with which the tokens read so far can no longer be continued to a pattern, or the end of the last token if the text ended too early.", "quantifier": "every pattern text", "why_tests_cant": "Patterns are unbounded; the tests only look at patterns that parse.", "anchors": ["pango-lexer/src/regex/parser.rs: parse, get_current_token_position"]}
{"id": "C56", "title": "The text of regex errors determines them", "statement": "Different lists of errors have different texts: kind, both positions and number of errors can be read off the displayed text. The text has two lines for each error, the second one empty; the first has both positions in decimal and what was expected.", "quantifier": "every list of errors", "why_tests_cant": "Positions and lists are unbounded.", "anchors": ["pango-lexer/src/regex/parser.rs: Display for ParseErrorKind, ParseError, W<Vec<ParseError>>"]}
{"id": "C57", "title": "The simulator gives up exactly on hopeless texts", "statement": "After a text was fed to the simulator of a regex, a run is left exactly if the text is the beginning of a match.", "quantifier": "every regex, text and hash order", "why_tests_cant": "Texts and regexes are unbounded; the tests only look at whether whole texts are accepted.", "anchors": ["pango-lexer/src/fsm/nfa/sim.rs: feed", "pango-lexer/src/lexer/mod.rs: next"]}
{"id": "C58", "title": "The lexer tokenizes by maximal munch", "statement": "The tokens a lexer returns before its first None are exactly those of maximal munch: repeatedly the longest match, as a token of the first pattern that matches it, until nothing matches; there is exactly one such list, and the lexer returns it for every hash order.", "quantifier": "every list of patterns and every text", "why_tests_cant": "Patterns, texts and hash orders are unbounded.", "anchors": ["pango-lexer/src/lexer/mod.rs: Lexer::next", "pango-lexer/src/lexer/input.rs"]}
{"id": "C59", "title": "Parsing a text is parsing its tokens", "statement": "Slr::parse on a Lexer returns what it returns on the tokens of maximal munch: a derivation tree of these tokens, or Err if they are no sentence; it terminates and does not panic.", "quantifier": "every grammar, list of patterns, text and hash order", "why_tests_cant": "Grammars, patterns and texts are unbounded, and the parser pulls tokens from the lexer while it runs.", "anchors": ["pango-parser/src/parser/slr.rs: Slr::parse", "pango-lexer/src/lexer/mod.rs: Lexer::next"]}
{"id": "C60", "title": "The example program parses every text as specified", "statement": "examples/expr.rs, run on any text, returns the left-associative tree of the longest prefix made of digits, + and * if that is a digit followed by operators with digits, and Err otherwise, whatever the hash order; it never panics.", "quantifier": "every text and every hash order", "why_tests_cant": "The test runs one text under one hash order.", "anchors": ["pango-parser/examples/expr.rs: main", "pango-parser/src/parser/slr.rs: tests::parse"]}
{"id": "C61", "title": "What any number of calls of a lexer return", "statement": "For any patterns and text, the results of consecutive calls of Lexer::next are those of a reference lexer stated on the languages of the patterns alone: each call reads until the text cannot be fed, returns the longest match with what was read in vain before it, hands back what was read after it, and loses what is left of the characters handed back before.", "quantifier": "every list of patterns, text, number of calls and hash order", "why_tests_cant": "Patterns, texts and numbers of calls are unbounded; tests only look at the tokens before the first None.", "anchors": ["pango-lexer/src/lexer/mod.rs: Lexer::next", "pango-lexer/src/lexer/input.rs: InputIter"]}
{"id": "C62", "title": "Exactly when matching and lexing end", "statement": "The simulation of the automaton of a regex on a text ends, with any hash order, exactly when no first part of the text leads to a repeated group with a round that matches the empty text, a condition stated on the languages of the parts of the regex alone. The calls of a lexer return exactly as long as the text to be read next has no such part for any of the patterns.", "quantifier": "every regex, list of patterns, text, number of calls and hash order", "why_tests_cant": "Non-termination cannot be observed by a finite test, and the condition must be exact for all regexes and texts.", "anchors": ["pango-lexer/src/fsm/nfa/sim.rs: NfaSimulator::eps_closure", "pango-lexer/src/fsm/nfa/sim.rs: feed", "pango-lexer/src/lexer/mod.rs: Lexer::next"]}
{"id": "C63", "title": "The tokens of every pattern text", "statement": "The tokenizer of patterns returns for every text exactly the tokens of a declarative specification: which characters make up each token, what it means (every escape, control character, code point, class, operator and repetition, also the malformed ones and those cut off by the end), its position, and where reading panics. With C48 this determines the regex or the rejection from the text.", "quantifier": "every text, build mode and table of alphabetic characters", "why_tests_cant": "The unit tests spell a few tokens each; the malformed spellings and the digit strings of any length are infinitely many.", "anchors": ["pango-lexer/src/regex/tokenizer.rs: Tokenizer::next", "pango-lexer/src/regex/tokenizer.rs: handle_class_or_escape_sequence", "pango-lexer/src/regex/tokenizer.rs: take_next_decimals_and_convert_to_u32"]}
{"id": "C64", "title": "What becomes of every pattern text", "statement": "Every pattern text has exactly one of three outcomes, each described by the specification of its tokens alone: it is read as a regex (the tokens, or those before a stray closing parenthesis, spell it), parsing it panics (a number overflows with the checks on, and the token before it still lets the parser look there), or it is rejected. Adding it to a lexer panics exactly if parsing panics or the regex has an empty alternative, fails exactly if the text is rejected, and succeeds otherwise.", "quantifier": "every text, build mode, table of alphabetic characters and list of patterns added before", "why_tests_cant": "Whether a panic is reached depends on what precedes the number, in infinitely many ways, and the absence of other panics is a statement about all texts.", "anchors": ["pango-lexer/src/regex/tokenizer.rs: Tokenizer::next", "pango-lexer/src/regex/parser.rs: Parser::parse", "pango-lexer/src/lexer/mod.rs: LexerGenerator::add_token"]}
{"id": "C65", "title": "The parser is a machine on symbols, for every grammar", "statement": "For every grammar for which Slr::new succeeds, epsilon bodies and useless variables included, the parser behaves as a machine whose stack holds symbols and trees and whose moves are given by the LR(0) items and FOLLOW: it returns a tree exactly if the machine accepts with that tree, fails (Err or panic) exactly if the machine gets stuck, runs forever exactly if the machine does, panics if a body is longer than the stack, and returns Err if the row it looks in has entries but not the one looked for; every failure is one of these two or happens at a row without entries. The machine is deterministic and does not depend on the numbering of the states or the iteration order of the maps, except in whether the start variable has a FOLLOW entry.", "quantifier": "every grammar, hash iteration order, lawful terminal equality and list of tokens", "why_tests_cant": "Tests parse a few sentences of a few grammars without epsilon; the numbering of the states varies with the hash seed of the process.", "anchors": ["pango-parser/src/parser/slr.rs: Slr::parse", "pango-parser/src/parser/slr.rs: Slr::new"]}
{"id": "C66", "title": "A returned tree never has an empty variable", "statement": "Whatever the grammar, the tree returned by the parser has no variable without children, except that the start variable may stand so as the first child of the root (the entry at the bottom of the stack). Hence a sentence that needs an epsilon rule inside its tree is never given that tree.", "quantifier": "every grammar, hash iteration order, lawful terminal equality and list of tokens", "why_tests_cant": "No test has an epsilon rule, and the absence of such trees concerns all grammars and all inputs.", "anchors": ["pango-parser/src/parser/slr.rs: Slr::parse"]}
{"id": "C67", "title": "The size of the automaton", "statement": "The number of states of the automaton is polynomial in the number of different item sets. (False: a state is looked up only among the processed ones, and the queue is breadth first, so every shortest word to an item set gets its own state. For every n a grammar with 2n+1 rules has at most 4n+2 item sets but at least 2^n states, for every hash order. What holds: the number of states lies between the number of shortest words and the number of words at most one symbol longer than a shortest one.)", "quantifier": "every grammar and hash iteration order; the lower bound for every n", "why_tests_cant": "The tests build automata of small grammars with few shortest words; the growth only shows for families of grammars.", "anchors": ["pango-parser/src/cfsm/mod.rs: Cfsm::from_grammar"]}
{"id": "C68", "title": "From the text to the tree, for every lexer and grammar", "statement": "For every list of patterns of which a lexer can be built and every grammar for which Slr::new succeeds, parsing a text returns a tree exactly if the machine on symbols (C65), fed with the tokens of the calls of the lexer (C61), accepts with that tree, fails exactly if that machine gets stuck, and never ends exactly if the machine asks for a token while a pattern spins on what is to be read (C62) or moves on for ever. A lexical error counts as the end of the text.", "quantifier": "every list of patterns, text, grammar, hash iteration order and lawful terminal equality", "why_tests_cant": "The interplay of lexer and parser (looking at one token at a time, errors taken for the end, tokens never asked for) concerns every pair of a lexer and a grammar.", "anchors": ["pango-parser/src/parser/slr.rs: Slr::parse", "pango-lexer/src/lexer/mod.rs: Lexer::next", "pango-parser/src/parser/mod.rs"]}
{"id": "C69", "title": "Functions that make the token kinds and fail", "statement": "The function given with a pattern is called each time the text read so far is matched with that pattern first, not only for the token that is returned in the end. If such a function panics or does not return: calls of the lexer return exactly if every function called returns (and no pattern spins, C62), with the results of C61; they panic exactly if the first function that fails panics and no pattern spins before it; they never return exactly if the first function that fails does not return or a pattern spins before. So a lexer can panic because of a text that is no token (pattern ab?, text ab, a function that takes only ab). Functions that always return give the lexer of C61.", "quantifier": "every list of patterns with functions that may panic or not return, text, number of calls and hash iteration order", "why_tests_cant": "The functions of the tests return on every text; which texts they are called with is not visible in the tokens.", "anchors": ["pango-lexer/src/lexer/mod.rs: Lexer::next"]}
{"id": "C70", "title": "The parser ends after linearly many steps or never", "statement": "For every grammar for which Slr::new succeeds, epsilon rules and cycles included, and every list of n tokens: if the main loop of parse has not ended after (2n+1)(v+1) turns, v being the number of variables, it never ends. It never ends exactly if the machine of C65 comes back to the same symbols on its stack before the same tokens.", "quantifier": "every grammar, hash iteration order, lawful terminal equality and list of tokens", "why_tests_cant": "No finite run of the parser shows that it does not end; the bound concerns all grammars and inputs.", "anchors": ["pango-parser/src/parser/slr.rs: Slr::parse"]}
{"id": "C71", "title": "Rewriting patterns by laws of regexes changes nothing", "statement": "If the patterns of a lexer are rewritten by these laws, all calls return the same for every text (or never return, as before): plain parentheses may be dropped or added, sequences regrouped, alternatives reordered, regrouped, repeated and multiplied out on both sides, a literal replaced by one with the same characters, a quantifier by one with the same counts, l q by (l) q for a literal l, and for whole patterns l+ by l l*. The first laws hold anywhere inside a pattern. Not so for e{1} and e, nor for l+ and l l* inside a repetition.", "quantifier": "all patterns and their rewritings, texts, numbers of calls, hash orders", "why_tests_cant": "Unboundedly many regexes, texts and rewritings.", "anchors": ["pango-lexer/src/fsm/nfa/compiler.rs: expr", "pango-lexer/src/fsm/nfa/sim.rs", "pango-lexer/src/lexer/mod.rs: Lexer::next"]}
{"id": "C72", "title": "Names and the order of calls do not matter", "statement": "If two sequences of builder calls set start variables with corresponding names and add the same rules up to injective renamings of variables and terminals, in any order and any number of times, build panics on both or on none, and the grammars are renamings of each other. If moreover the start variable has a FOLLOW entry under every hash order or under none, Slr::new succeeds for both or for neither, and for every list of tokens the second parser given the renamed tokens returns the renamed tree, fails (Err or panic) when the first fails and runs forever when the first does. Giving two terminals one name can make Slr::new panic.", "quantifier": "all types of variables and terminals, sequences of calls, injective renamings, lawful terminal equalities that agree under the renaming, hash orders, lists of tokens", "why_tests_cant": "Unboundedly many grammars, renamings, orders of calls and inputs; the numbers of the states differ between the two parsers.", "anchors": ["pango-parser/src/grammar.rs: GrammarBuilder", "pango-parser/src/parser/slr.rs: Slr::new, Slr::parse"]}
{"id": "C73", "title": "The raw pointers never dangle", "statement": "A program that builds grammars, makes automata (Cfsm::from_grammar) and parsers (Slr::new) from them, parses, prints and drops them in any order never loads a pointer stored in an item (NonNull<Body>), in a transition (NonNull<Symbol>) or in the action table (NonNull<T>) that does not point to a live body, symbol or terminal; also when Slr::new panics in the middle. Every operation returns, panics or runs on exactly as in the models in which the pointers are replaced by their pointees.", "quantifier": "all types of variables and terminals, sequences of operations, sequences of builder calls, lists of tokens, hash orders, choices of follow_set among references to equal terminals", "why_tests_cant": "Undefined behaviour need not show in a test; unboundedly many programs and grammars.", "anchors": ["pango-parser/src/cfsm/item.rs: ItemBody", "pango-parser/src/cfsm/state.rs: WSymbol", "pango-parser/src/parser/table.rs: Terminal", "pango-parser/src/cfsm/mod.rs: CfsmBuilder"]}
{"id": "C74", "title": "With an end token the parser is exact", "statement": "Take any grammar and add a new start variable z with the rules z -> s e | z o, where s is the old start variable, e an end token and o a token that is never sent. The builder accepts this. Slr::new panics on the new grammar exactly if the textbook SLR(1) table of the old grammar, in which a complete item reduces under all that may follow its variable including the end of the input, has two different requests for one cell (two items that read the same terminal count). If it succeeds and the old grammar has no epsilon and no useless variable, then parse on any tokens followed by e returns Ok of the node z over a derivation tree of the tokens and e if the tokens are a sentence, and Err otherwise; it never panics and ends after at most (2(n+1)+1)(v+1)+1 turns.", "quantifier": "all types of variables and terminals, sequences of builder calls, lawful terminal equalities, hash orders, lists of tokens", "why_tests_cant": "Unboundedly many grammars and inputs; the claim that no sentence is rejected, no other text accepted and no input panics needs all of them.", "anchors": ["pango-parser/src/parser/slr.rs: Slr::new, Slr::parse", "pango-parser/src/parser/table.rs: new_slr", "pango-parser/src/grammar.rs: GrammarBuilder, follow_set"]}
{"id": "C75", "title": "A text with an end character is parsed exactly", "statement": "Let the text be followed by a character that occurs nowhere in it, let the patterns be as in C58, let the pattern of that character be the only one whose tokens equal the end token, and let the grammar be wrapped as in C74. Then parsing the text ends, without a panic: the result is the derivation tree (under the new start variable) if maximal munch covers the whole text and its tokens are a sentence of the grammar, and Err in all other cases, lexical errors included.", "quantifier": "all patterns and generators as described, texts, grammars without epsilon and useless variables for which Slr::new succeeds, hash orders", "why_tests_cant": "Unboundedly many texts, patterns and grammars; a lexical error that passes for the end of the input shows only on particular texts.", "anchors": ["pango-lexer/src/lexer/mod.rs: Lexer::next", "pango-parser/src/parser/slr.rs: Slr::parse", "pango-parser/src/lib.rs"]}
{"id": "C76", "title": "Ordinary pattern lists are lexed by maximal munch", "statement": "Call a list of patterns plain if every pattern is of one of three kinds: eager (single literals, unbounded repetitions, alternatives of such, and sequences in which all but the first part may be left out, such as [a-z][a-z0-9]*), a word all of whose proper first parts match some pattern of the list (a keyword among names, == beside =), or a quoted text (d, anything but d', d') whose opening quote begins no other pattern; and if no repeated group matches the empty text (loops_ok) and every counted leading group begins with a literal or may be repeated any number of times (lead_ok, the patterns for which the automaton matches the regular language). With a plain list the lexer returns, on every text, exactly the tokens of maximal munch for the regular languages of the patterns (longest match, first pattern on ties, stop at the first place where nothing matches), and then None.", "quantifier": "all plain lists of patterns, generators, texts, hash orders", "why_tests_cant": "Unboundedly many lists of patterns and texts; the lexer is not maximal munch in general (C13), so the condition has to be shown to be enough for all of them.", "anchors": ["pango-lexer/src/lexer/mod.rs: Lexer::next", "pango-lexer/src/fsm/nfa/sim.rs", "pango-lexer/src/regex/ast.rs"]}
{"id": "C77", "title": "The lexer reads linearly many characters", "statement": "There is a constant c such that all calls of next together take at most c times the length of the text from the input iterator, characters handed back and read again included.", "quantifier": "all lists of patterns, texts, numbers of calls, hash orders", "why_tests_cant": "A bound for all texts and patterns; quadratic behaviour shows only on long texts for particular patterns.", "anchors": ["pango-lexer/src/lexer/mod.rs: Lexer::next", "pango-lexer/src/lexer/input.rs: InputIter::next, consume_token"]}
{"id": "C78", "title": "The regexes of accepted patterns are the documented ones", "statement": "The regexes that patterns are read as, other than those with an empty alternative (on which adding the pattern panics), are exactly the regexes of the documented grammar, with bounds below 2^32. Writing the regex of a pattern that was added to a lexer and adding that text instead gives the same lexer. The text written for the regex of any accepted pattern is read as this regex again, exactly if the regex is empty or its last alternative is not.", "quantifier": "all pattern texts, lexers built before, generators", "why_tests_cant": "All texts, not only the ones written from a regex: the round trip of the proptest starts from regexes and does not say that nothing else can be read.", "anchors": ["pango-lexer/src/regex/parser.rs: Parser::parse", "pango-lexer/src/regex/ast.rs: the grammar", "pango-lexer/src/regex/tests/proptest.rs", "pango-lexer/src/lexer/mod.rs: add_token"]}
{"id": "C79", "title": "Debug texts determine what they show", "statement": "The {:?} and {:#?} texts of the result of Slr::parse, of a Grammar, of a lexer Token and of a Cfsm determine what they were printed from: results and tokens exactly (the text of a result begins with Err exactly for errors); grammars and automata up to the order of their hash maps and sets. For Debug this is the only public view of a Cst. It holds for user types whose Debug is made of identifiers, numbers and quoted literals through the debug builders (what deriving gives), and not for types that write arbitrary text.", "quantifier": "all results, grammars, automata and tokens; all variable, terminal and kind types with such a Debug; all hash orders; every set of printable characters", "why_tests_cant": "It compares the texts of all pairs of values of unbounded size, for all hash orders.", "anchors": ["pango-parser/src/cst.rs", "pango-parser/src/grammar.rs", "pango-parser/src/lib.rs", "pango-parser/src/cfsm/item.rs", "pango-parser/src/cfsm/state.rs", "pango-parser/src/cfsm/mod.rs", "pango-lexer/src/lexer/mod.rs"]}
{"id": "C80", "title": "Parsers with the same Debug text parse alike", "statement": "If two parsers made by Slr::new, from whatever grammars and hash orders, print the same {:?} or {:#?} text, then parse gives the same outcome with both on every lexer: the same tree, error, panic or non-termination. The hand written Debug of the table leaves the automaton and the grammar out, but nothing that parsing depends on.", "quantifier": "all pairs of grammars accepted by Slr::new, all hash orders, all lexers", "why_tests_cant": "All pairs of grammars and all inputs.", "anchors": ["pango-parser/src/parser/table.rs", "pango-parser/src/parser/slr.rs"]}
{"id": "C81", "title": "Grammars with fewer rules are accepted", "statement": "If Slr::new succeeds for a grammar it succeeds for every grammar with the same start variable and some of its rules; that is, adding a rule never removes a conflict.", "quantifier": "all pairs of grammars of which one has some of the rules of the other, all hash orders, all lawful terminal_eq", "why_tests_cant": "All pairs of grammars of any size and all hash orders.", "anchors": ["pango-parser/src/parser/table.rs", "pango-parser/src/parser/slr.rs", "pango-parser/src/grammar.rs"]}
{"id": "C82", "title": "Adding rules keeps the trees", "statement": "If Slr::new succeeds for a grammar and for the grammar with more rules, the second parser returns every tree the first one returns, for the same tokens, and does not end where the first does not. Epsilon rules are allowed.", "quantifier": "all pairs of grammars of which one has some of the rules of the other, all token lists, all hash orders", "why_tests_cant": "All pairs of grammars and all inputs.", "anchors": ["pango-parser/src/parser/slr.rs", "pango-parser/src/parser/table.rs"]}
{"id": "C83", "title": "Rules that cannot be used do not matter", "statement": "Rules of variables that cannot be reached from the start variable change neither whether Slr::new succeeds nor what the parser returns.", "quantifier": "all grammars and all additional rules of unreachable variables, all token lists, all hash orders", "why_tests_cant": "All grammars and all inputs; the FOLLOW sets are computed from all rules, so this is not obvious.", "anchors": ["pango-parser/src/parser/table.rs", "pango-parser/src/grammar.rs"]}
{"id": "C84", "title": "Patterns that match no common text can change places", "statement": "Swapping neighbouring patterns that match no common non-empty text, any number of times, changes nothing: the lexer returns the same tokens, also after errors, or does not end as before.", "quantifier": "all pattern lists, all texts, any number of calls, all hash orders", "why_tests_cant": "All pairs of lists and all texts.", "anchors": ["pango-lexer/src/lexer/mod.rs", "pango-lexer/src/fsm/nfa/mod.rs", "pango-lexer/src/fsm/nfa/sim.rs"]}
{"id": "C85", "title": "A pattern that is always preceded can be left out", "statement": "A pattern all of whose matches are matched by earlier patterns can be left out without any change.", "quantifier": "all pattern lists, all texts, any number of calls, all hash orders", "why_tests_cant": "All lists and all texts.", "anchors": ["pango-lexer/src/lexer/mod.rs", "pango-lexer/src/fsm/nfa/mod.rs", "pango-lexer/src/fsm/nfa/sim.rs"]}
{"id": "C86", "title": "Kinds do not influence the texts of tokens", "statement": "If the functions that make the kinds are followed by a translation, the lexer returns the tokens with translated kinds: same texts, same positions, same Nones.", "quantifier": "all pattern lists, all kind types and translations, all texts, any number of calls, all hash orders", "why_tests_cant": "All types, functions and texts.", "anchors": ["pango-lexer/src/lexer/mod.rs", "pango-lexer/src/fsm/nfa/mod.rs"]}
{"id": "C87", "title": "Texts can be lexed in parts", "statement": "For patterns as in C58: a new lexer started after any token returns the rest of the tokens with shifted positions; and if no pattern reads over a certain character, a text can be cut before each such character and its parts lexed one by one.", "quantifier": "all such pattern lists, all texts, all cuts, all hash orders", "why_tests_cant": "All texts and all cuts.", "anchors": ["pango-lexer/src/lexer/mod.rs", "pango-lexer/src/lexer/input.rs"]}
{"id": "C88", "title": "A new hash order at every iteration changes nothing", "statement": "Even if every single iteration over a hash map or hash set, also over equal contents, comes in an order of its own, matching and lexing give the same answers and tokens, give them in exactly the same cases, and lexing never panics.", "quantifier": "all automata, all pattern lists, all texts, any number of calls, all sequences of orders", "why_tests_cant": "The number of sequences of orders is exponential in the number of iterations, and a process sees one of them.", "anchors": ["pango-lexer/src/fsm/nfa/sim.rs", "pango-lexer/src/fsm/nfa/model.rs", "pango-lexer/src/lexer/mod.rs"]}
{"id": "C89", "title": "How much call stack adding a pattern takes", "statement": "The nested calls of the regex parser and compiler for a pattern are at most two more than its bars and twice its opening parentheses; with less stack the result is an overflow or unchanged, for an accepted pattern exactly by the nesting of its regex; and for every stack size there are accepted patterns, nested groups as well as plain lists of alternatives, that overflow it.", "quantifier": "all lexers, all patterns, all stack sizes", "why_tests_cant": "A test has one stack size and finitely many patterns.", "anchors": ["pango-lexer/src/regex/parser.rs", "pango-lexer/src/fsm/nfa/compiler.rs", "pango-lexer/src/lexer/mod.rs"]}
{"id": "C90", "title": "How large the stack and the tree of the parser get", "statement": "For every grammar for which Slr::new succeeds, the stack of parse never has more entries than one for each token and one more, and a returned tree has at most a constant of the grammar times the number of tokens nodes; its height, and so the nesting of calls when it is dropped or printed, can be more than the number of tokens.", "quantifier": "all such grammars, all token sequences, all hash orders", "why_tests_cant": "All grammars, epsilon rules and unit cycles included, and all lengths.", "anchors": ["pango-parser/src/parser/slr.rs", "pango-parser/src/cst.rs"]}
{"id": "C91", "title": "A front end gives every text its one prescribed outcome", "statement": "Given ordinary patterns, of which only the one for an end character makes the end token, and a grammar without epsilon and useless variables whose textbook SLR(1) table has no conflict, wrapped with an end token: building the grammar, adding the patterns and Slr::new all succeed, and for every text followed by the end character parse returns the tree of the one derivation of the tokens of maximal munch, or Err if there is none or the patterns do not cover the text; it never panics or diverges and the result is the same for every hash order.", "quantifier": "all such lists of patterns and grammars, all texts, all hash orders", "why_tests_cant": "All texts of any length, all grammars and pattern lists of the class and all hash seeds at once; absence of a derivation cannot be tested.", "anchors": ["pango-lexer/src/lexer/mod.rs", "pango-parser/src/parser/slr.rs", "pango-parser/src/grammar.rs"]}
{"id": "C92", "title": "Patterns match exactly the regular languages", "statement": "For every textbook regular expression over sets of characters there is a pattern that add_token accepts and whose matcher answers every text, with exactly the language of the expression, for every hash order. For every pattern that compiles, the texts its matcher takes are the words of a regular expression, and there is a pattern, read by the textbook, with exactly these matches.", "quantifier": "all regular expressions, all patterns, all texts, all hash orders", "why_tests_cant": "A statement about all languages; tests try single patterns and texts.", "anchors": ["pango-lexer/src/fsm/nfa/compiler.rs", "pango-lexer/src/fsm/nfa/sim.rs", "pango-lexer/src/regex/parser.rs"]}
{"id": "C93", "title": "Written tokens and trees are read back", "statement": "For steady patterns, a text written token by token, so that no token together with the next character is a token, is lexed into exactly these tokens, and only such texts are lexed completely; with a separator character between them any tokens can be written. With a front end as in C91 the parser returns, for every text written from the tokens of a derivation tree with the end character behind it, exactly that tree.", "quantifier": "all such pattern lists, grammars, token sequences and trees, all hash orders", "why_tests_cant": "All sequences of tokens and all trees; round trips can be tested for samples only.", "anchors": ["pango-lexer/src/lexer/mod.rs", "pango-parser/src/parser/slr.rs"]}
{"id": "C94", "title": "The automaton is not larger than the patterns", "statement": "The automaton of a regex has exactly two states more than the regex has quantifiers and places between consecutive items, whatever numbers the quantifiers contain, and at most an arrow per literal and two per quantifier. So the automaton of a pattern has at most one state more than the pattern has characters and fewer than two arrows per character; a lexer's automaton has at most as many states as all its patterns have characters (an empty one counting as one), and two.", "quantifier": "all regexes, all pattern texts, all lists of patterns", "why_tests_cant": "A bound for patterns of every length; tests compile a few patterns and do not count states.", "anchors": ["pango-lexer/src/fsm/nfa/compiler.rs", "pango-lexer/src/fsm/nfa/model.rs", "pango-lexer/src/lexer/mod.rs"]}
{"id": "C95", "title": "The parser's model has every behaviour that iteration orders allow", "statement": "Let every single iteration over a HashMap or HashSet in Grammar::first, Grammar::follow_set, Cfsm::from_grammar and Slr::new yield its elements in an arbitrary order, independently of all other iterations. The results these functions can then have are exactly the results of the model for some HashOrder; so what is proved for every HashOrder holds for every combination of orders.", "quantifier": "all grammars, all orders of all iterations, all fuels", "why_tests_cant": "The order of a hash container is random; a test sees one combination of orders per run.", "anchors": ["pango-parser/src/grammar.rs", "pango-parser/src/cfsm/item.rs", "pango-parser/src/cfsm/mod.rs", "pango-parser/src/parser/table.rs", "pango-parser/src/parser/slr.rs"]}
{"id": "C96", "title": "Every regular language has a grammar that is parsed exactly", "statement": "For every finite automaton over tokens there is a grammar for which Slr::new succeeds for every hash order and whose parser returns a tree exactly for the nonempty words of the automaton followed by an end token, and Err for all other inputs without the one reserved token. For a deterministic automaton without useless edges the left linear grammar will do, and the parser needs linearly many turns in tokens and edges; the right linear grammar makes Slr::new panic as soon as a final state that can be entered can also be left.", "quantifier": "all finite automata, all inputs, all hash orders, all lawful terminal_eq", "why_tests_cant": "Automata, inputs and hash orders are unbounded; tests try a few grammars.", "anchors": ["pango-parser/src/parser/slr.rs", "pango-parser/src/parser/table.rs", "pango-parser/src/grammar.rs"]}
{"id": "C97", "title": "Every SLR(1) grammar can be written so that it is parsed exactly", "statement": "Slr::new refuses SLR(1) grammars in which a state reads a terminal in two items. If every terminal gets a variable of its own with the one rule that is the terminal, Slr::new returns a table for every SLR(1) grammar and every hash order; the sentences stay the same and the trees only get a node above every leaf. With an end token the parser then returns the tree of every sentence of a grammar without epsilon and useless variables, and Err for all other inputs, after linearly many turns.", "quantifier": "all SLR(1) grammars whose equal terminals are written alike, all inputs, all hash orders", "why_tests_cant": "Grammars, inputs and hash orders are unbounded; tests try a few.", "anchors": ["pango-parser/src/parser/table.rs", "pango-parser/src/parser/slr.rs", "pango-parser/src/grammar.rs"]}
{"id": "C98", "title": "Exactly which patterns are lexed by maximal munch, and for which the end is the end", "statement": "For every list of patterns without empty alternatives and spinning loops: every input is split into tokens by maximal munch if and only if a matched non-empty text stays matched as long as more characters can be fed. The same condition is equivalent to: whenever the lexer gives its first None, no non-empty prefix of the remaining input matches. After a first None only None follows, on every input, if and only if no text can be read in vain up to a character that cannot be fed, or no pattern matches a non-empty text.", "quantifier": "all pattern lists without empty alternatives whose loops cannot spin, all inputs, all hash orders, all numbers of calls", "why_tests_cant": "The claim is an equivalence between a condition on infinite languages and the behaviour on all inputs; tests only see single inputs.", "anchors": ["pango-lexer/src/lexer/mod.rs", "pango-lexer/src/fsm/nfa/sim.rs"]}
{"id": "C99", "title": "The work of FIRST, FOLLOW and closures is bounded by a polynomial", "statement": "Computing FIRST and FOLLOW sets and item closures takes polynomially many steps in the size of the grammar. This is false for FIRST: first_bodies keeps a vector of suffixes for every waiting variable and pushes duplicates, so for every n >= 1 there is a grammar with at most 2n + 3 rules of at most n + 2 symbols for which follow_set takes at least 2^(n-1) bodies from its queue, in every iteration order. What holds: the number of turns of the loop in first_bodies is at most 1 + n(n+1)(t+2) for n variables and t terminals, follow_set makes at most that many for every symbol on a right hand side and at most n*n*(t+1) turns of its own, and the closure of an item set takes exactly one turn for every item of the result.", "quantifier": "all n >= 1, all iteration orders, all built grammars, bodies and item sets", "why_tests_cant": "The tests use grammars with a handful of rules, where duplicates are few; neither growth with n nor a bound for all grammars shows in them.", "anchors": ["pango-parser/src/grammar.rs", "pango-parser/src/cfsm/item.rs"]}
{"id": "C100", "title": "Grammars with epsilon can be written so that they are parsed exactly", "statement": "Epsilon rules and useless variables are what the parser does not handle (C37, C38, C39, C66). Take any grammar, add an end token as in C74, write every rule with and without the variables that can be empty, and leave out the variables that derive no text or are not needed. The builder accepts this exactly if the grammar has a sentence; the trees of the new grammar are the trees of the old one without the variables that stand for the empty text. If Slr::new takes the new grammar, parse returns, for every sentence of the grammar (the empty one too) and the end token, what all its derivation trees become without the empty variables, and Err for every other input, after linearly many turns. If the grammar without epsilon and useless variables is SLR(1), Slr::new does take it once every terminal has a variable of its own (C97), and all sentences but the empty one are parsed.", "quantifier": "all sequences of builder calls, lawful terminal equalities, hash orders, lists of tokens without the unused token", "why_tests_cant": "It is about all grammars and all inputs, and relates trees of two grammars.", "anchors": ["pango-parser/src/parser/slr.rs", "pango-parser/src/parser/table.rs", "pango-parser/src/grammar.rs"]}
{"id": "C101", "title": "Patterns that read every character in one way are lexed with a bounded number of runs", "statement": "The runs of the simulator can double with every character (C14). If no repeated part of a pattern can be empty and after every literal of the pattern no character is in two of the literals that can come next, then the number of runs has a bound that does not depend on the text, neither for one regex nor for a lexer whose patterns are all of this kind (different patterns may read the same texts). The runs that all calls of next go over, summed over all characters read, are then at most a constant times the square of the length of the text, and a constant times the length if the patterns stay matched as long as they can be fed.", "quantifier": "all such regexes and lists of patterns, texts, numbers of calls, hash orders", "why_tests_cant": "A bound on the work for all texts, with a condition on patterns.", "anchors": ["pango-lexer/src/fsm/nfa/sim.rs", "pango-lexer/src/fsm/nfa/compiler.rs", "pango-lexer/src/lexer/mod.rs"]}
{"id": "C102", "title": "The states hold exactly the valid items, and the parser makes rightmost derivations backwards", "statement": "Without epsilon and without unproductive variables the state that a sequence of symbols leads to holds exactly the items that some rightmost derivation of the grammar has after it, and there is such a state exactly for the viable prefixes. Without epsilon the stack always derives, from the right, the tokens read, in as many steps as there were reductions. If a text is accepted (and the start variable is only at the front of forms), then all configurations of the run lie on a rightmost derivation of the text: stack and remaining tokens are a form of it, the number of reductions made is the number of steps behind it, and the last stack is a body of the start variable.", "quantifier": "all built grammars, hash orders, paths, texts, runs and configurations", "why_tests_cant": "It is a statement about all derivations and all states at once; a test sees one text, and wrong items can stay without effect on it.", "anchors": ["pango-parser/src/cfsm/mod.rs", "pango-parser/src/cfsm/item.rs", "pango-parser/src/parser/slr.rs"]}
{"id": "C103", "title": "Debug texts of regexes, errors, inputs and runs determine what they show", "statement": "The {:?} and {:#?} texts of a regex, of its tokens, of the errors of a pattern, of the inputs of an automaton and of the runs of a simulator determine the value they were printed from; so does the message of the panic when the errors are unwrapped. The labels of the dot text of an automaton are the {:?} texts of its inputs.", "quantifier": "all regexes, tokens, error lists, inputs and runs; every set of printable characters", "why_tests_cant": "It compares the texts of all pairs of values of unbounded size.", "anchors": ["pango-lexer/src/regex/ast.rs", "pango-lexer/src/regex/tokenizer.rs", "pango-lexer/src/regex/parser.rs", "pango-lexer/src/fsm/nfa/model.rs", "pango-lexer/src/fsm/nfa/sim.rs"]}
{"id": "C104", "title": "What a build with debug assertions writes while lexing", "statement": "The dbg! calls of the simulator change neither tokens nor panics nor endless loops. What the calls of a lexer write to the standard error output is, for every character before the first one that cannot be fed, the character, the runs (never none) and whether the text up to it is matched by a pattern. The text determines all of that: the characters, the runs with their counters and the answers. Two lexers for the same patterns whose first calls write the same text and return tokens return the same token.", "quantifier": "all pattern lists, texts, hash orders, numbers of calls, places of the dbg! calls and sets of printable characters", "why_tests_cant": "It relates all texts written, of unbounded length, to the languages of all patterns, and compares all pairs of runs.", "anchors": ["pango-lexer/src/fsm/nfa/sim.rs", "pango-lexer/src/lexer/mod.rs"]}
{"id": "C105", "title": "The numbers lexing counts with stay below the length of the text plus one", "statement": "Whenever the simulator returns, no counter of a run is larger than the number of characters read plus one, and the counter that a quantifier is compared with is not larger than the number of characters read. So the number of different runs is at most n (k + 3)^n for n states and k characters. The tokens of all calls, also after calls that returned None, have positions that follow each other without a gap, none is empty, none ends behind the text, and none has more characters than its positions span. So no counter and no position overflows a usize.", "quantifier": "every regex, every list of patterns, every text, hash order and number of calls", "why_tests_cant": "It bounds all runs of all automata on texts of unbounded length.", "anchors": ["pango-lexer/src/fsm/nfa/sim.rs", "pango-lexer/src/lexer/mod.rs: Iterator for Lexer", "pango-lexer/src/lexer/input.rs"]}
{"id": "C106", "title": "Hash tables are maps exactly if equal keys write the same into the hasher", "statement": "A hash table whose keys are compared with an equivalence answers every sequence of searches, insertions and removals as a map, whatever the hasher and wherever else its searches look, exactly if equal keys write the same words into the hasher. Keys that are pointers (ItemBody, WSymbol, Terminal) write the same if what they point to is equal. If terminal_eq is an equivalence and equal terminals write the same in terminal_hash, the parser with hash tables is built or not, and parses, as the one of SlrModel.v. If terminal_hash tells apart terminals that terminal_eq equates, and the hasher does too, the parser is the one of the finer equality. The example meets the contract; with the derived Hash in place of its terminal_hash, whether 1 + 2 is parsed depends on the searches.", "quantifier": "every key type, hasher, way of searching, sequence of uses, heap, grammar, terminal_eq, terminal_hash, lexer and hash order", "why_tests_cant": "A test runs with one hasher and one way of searching; a broken contract shows only for unlucky hashes.", "anchors": ["pango-parser/src/parser/table.rs", "pango-parser/src/parser/traits.rs", "pango-parser/src/cfsm/item.rs", "pango-parser/src/cfsm/state.rs", "pango-parser/examples/expr.rs"]}
{"id": "C107", "title": "The outcome of every parse without epsilon rules, by derivation trees", "statement": "For a grammar without epsilon rules whose parser is built: a tree is returned exactly for the inputs of C47. The parser panics exactly on the inputs that begin with a text of a viable prefix, followed by a token that can follow its last variable if it ends with one, whose state has no action and no state with a higher number has one; or, if no state is left along a variable at all, on a text of the start variable before a token that can follow it. It never ends exactly on the inputs that begin with a text of a viable prefix that ends with a variable which unit rules, each followed by the next token, lead back to. All other inputs give an error. Some input makes the parser panic, or never end, exactly if there is such a viable prefix of productive variables.", "quantifier": "every grammar without reachable epsilon, every terminal_eq that is an equivalence, every hash order and every input", "why_tests_cant": "The inputs that panic or never end are found only by trying them; the theorem lists all of them for every grammar.", "anchors": ["pango-parser/src/parser/slr.rs", "pango-parser/src/parser/table.rs", "pango-parser/src/cfsm/mod.rs"]}
{"id": "C108", "title": "Exactly when the result depends on the hash order", "statement": "A variable has an entry in the FOLLOW map under every order of the hash maps exactly if something stands after it in a body, or a terminal can follow it, or it ends a body of a variable that something stands after. One order gives entries to just these variables. It has one under some order exactly if a chain of bodies that end with the next variable leads to it from a variable that something stands after, and one order gives entries to all of these. So `Slr::new` panics under some order exactly if two requests for one cell clash with the second kind of entry, and succeeds under some order exactly if none clash with the first kind. Without epsilon rules, a tree is returned under some order exactly if it is the tree of the input, the start variable can have an entry and nothing clashes then; and under some order a parser is built that does not return it exactly if the start variable need not have an entry and nothing clashes without.", "quantifier": "every grammar, every terminal_eq that is an equivalence, every input", "why_tests_cant": "The order of a std HashMap is random per process; a test run sees one order, and the theorem is about all of them.", "anchors": ["pango-parser/src/grammar.rs", "pango-parser/src/parser/table.rs", "pango-parser/src/parser/slr.rs"]}
{"id": "C109", "title": "The language of a parser is that of a grammar", "statement": "For a grammar g without epsilon rules whose parser is built, the parser returns a tree for no input, or for exactly the sentences of the grammar `loose g`: an input is something that can stand before the start variable S and a body of S that ends with a terminal; before S can stand nothing, and before a variable in a body of h can stand what can stand before h, followed by the part of the body before it. The tree returned is the derivation tree without its first child, so what stands before is dropped. Hence texts that can stand before S can be put before any input with a tree, and give the same tree.", "quantifier": "every grammar without reachable epsilon, every terminal_eq that is an equivalence, every hash order and every input", "why_tests_cant": "The set of accepted inputs is infinite; the theorem gives a finite grammar of it for every parser.", "anchors": ["pango-parser/src/parser/slr.rs", "pango-parser/src/parser/table.rs"]}
{"id": "C110", "title": "Exactly which grammars are parsed exactly", "statement": "For a grammar without useless variables: a parser returns exactly the derivation trees of the sentences if and only if no rule mentions epsilon, the start variable occurs in sentential forms only at the front, all its bodies end with a terminal, and some input has a tree. Under every order of the hash maps a parser is built that does so if and only if, in addition, the start variable has a FOLLOW entry under every order (see C108) and no two requests for one cell of the table clash, the accepts included.", "quantifier": "every grammar whose reachable variables are productive, every terminal_eq that is an equivalence, every hash order and every input", "why_tests_cant": "It decides for every grammar whether all of its infinitely many inputs are parsed as the grammar says.", "anchors": ["pango-parser/src/parser/slr.rs", "pango-parser/src/parser/table.rs", "pango-parser/src/grammar.rs"]}
{"id": "C111", "title": "How fast the number of runs grows", "statement": "If no repeated part of a regex can be empty and after every literal no character is in more than d of the literals that can come next, the simulator has at most A * d^(n-1) runs after n characters, with A depending on the regex only. Every regex has such a d, so the growth is never more than exponential; d = 1 is the condition of C101. The pattern of C14 with 2^n runs has d = 2. For all regexes, also those whose repeated parts can be empty, the number of runs after n characters is at most s(as5^s)^n for s states and a arrows, whenever the simulator returns.", "quantifier": "every regex and pattern list, every hash order and every text", "why_tests_cant": "It bounds the memory and time of matching for every text of every length.", "anchors": ["pango-lexer/src/fsm/nfa/sim.rs", "pango-lexer/src/fsm/nfa/compiler.rs"]}
{"id": "C112", "title": "The outcome of every text without epsilon rules", "statement": "For patterns that are lexed by maximal munch and a grammar without epsilon rules, the tokens of maximal munch decide what becomes of a text: whether it gives a tree and which, an error, a panic or no end, by the derivation trees of the first part of the tokens as in C107. If the grammar is one of C110, the trees given are exactly the derivation trees of the tokens.", "quantifier": "every steady pattern list without empty repeated parts, every grammar without reachable epsilon for which a parser is built, every terminal_eq that is an equivalence, every hash order and every text", "why_tests_cant": "It determines the outcome of infinitely many texts for all such patterns and grammars.", "anchors": ["pango-parser/src/parser/slr.rs", "pango-lexer/src/lexer/mod.rs"]}
{"id": "C113", "title": "Which grammars with useless variables are parsed exactly", "statement": "For a grammar without epsilon rules, whose variables need not derive any text, a parser returns exactly the derivation trees of the sentences if and only if there is no sentence, or: the start variable stands behind nothing that derives a text, its bodies that derive a text end with terminals, and some input has a tree. Under every order a parser is built that does so if and only if no two requests clash for an order that gives the start variable a FOLLOW entry if any does, and, if there is a sentence, the same two conditions hold and every order gives the start variable a FOLLOW entry.", "quantifier": "every grammar without reachable epsilon, every terminal_eq that is an equivalence, every hash order and every input", "why_tests_cant": "Both directions speak of all inputs and all orders for every grammar.", "anchors": ["pango-parser/src/parser/slr.rs", "pango-parser/src/grammar.rs"]}
{"id": "C114", "title": "The inputs with a tree are a context-free language", "statement": "For every grammar for which a parser is built, with or without epsilon rules, there is a grammar whose sentences are exactly the inputs to which the parser gives a tree. So although reductions by epsilon rules take entries that do not belong to them, what is accepted stays a context-free language.", "quantifier": "every grammar, every terminal_eq that is an equivalence, every hash order and every input", "why_tests_cant": "It is a statement about the infinite set of accepted inputs for all grammars.", "anchors": ["pango-parser/src/parser/slr.rs", "pango-parser/src/parser/table.rs"]}
{"id": "C115", "title": "Long inputs with a tree can be pumped", "statement": "For every grammar for which a parser is built, with or without epsilon rules, there is a number k such that every input of at least k tokens that has a tree is u v w y z with v w y of at most k tokens and v y not empty, and u v^i w y^i z has a tree for every i. In particular no grammar at all makes the parser take exactly the inputs a^n b^n c^n.", "quantifier": "every grammar, every terminal_eq that is an equivalence, every hash order, every input and every i", "why_tests_cant": "It speaks of infinitely many inputs and repetitions, and excludes a language for all grammars.", "anchors": ["pango-parser/src/parser/slr.rs", "pango-parser/src/parser/table.rs"]}
{"id": "C116", "title": "Whether an answer comes is known after a computable number of turns", "statement": "For a regex whose automaton has n states the loop of a closure takes at most n * 5^n turns or never ends: if matching a text ends at all, then with that many turns it ends in every hash order, with the same answer, and otherwise the text makes the regex spin. The same for the calls of a lexer, with the same tokens, and for parsing a text, where in addition the loops of the parser take at most (2 * length + 1) * (rules + 1) + 1 turns.", "quantifier": "every regex, every list of token patterns, every grammar for which a parser is built, every text, every hash order and every number of calls", "why_tests_cant": "A test that waits cannot tell a loop that takes long from one that never ends; the bound holds for all regexes and texts.", "anchors": ["pango-lexer/src/fsm/nfa/sim.rs", "pango-lexer/src/lexer/mod.rs", "pango-parser/src/parser/slr.rs"]}
{"id": "C117", "title": "Which patterns can make the lexer run for ever", "statement": "A function of the regex tells exactly whether there is a text on which matching never ends, for every hash order; if it says no, matching every text ends within the turns of C116. A lexer runs for ever on some text exactly if the function says yes for one of its patterns; if it says no for all, every number of calls on every text returns, and parsing a text can only run for ever in the parser itself.", "quantifier": "every regex, every list of token patterns, every grammar for which a parser is built, every text, every hash order and every number of calls", "why_tests_cant": "It speaks of all texts at once, and of never ending.", "anchors": ["pango-lexer/src/fsm/nfa/sim.rs", "pango-lexer/src/fsm/nfa/compiler.rs", "pango-lexer/src/lexer/mod.rs"]}
{"id": "C118", "title": "How many steps matching and lexing take", "statement": "Counting every state compared, every transition and run looked at and every counter cloned: matching a text takes at most a factor read off the automaton times the number of runs at every character, and at least the number of runs at the end. So for every regex it is at most exponential in the length of the text, for one regex it is exponential, and for the regexes of C101 it is linear. The calls of a lexer take at most exponentially many steps; with the patterns of C101 quadratically many, and linearly many if the patterns stay matched as long as they can be fed.", "quantifier": "every regex, every list of token patterns, every text, every hash order and every number of calls", "why_tests_cant": "A test measures single texts; growth is a statement about all lengths.", "anchors": ["pango-lexer/src/fsm/nfa/sim.rs", "pango-lexer/src/fsm/nfa/model.rs", "pango-lexer/src/lexer/mod.rs"]}
{"id": "C119", "title": "Questions about patterns that a function answers", "statement": "Computable functions tell, given where being alphabetic changes: whether some text meets any given condition on which of a list of regular expressions match it; whether the automaton of a pattern matches exactly the language of the pattern; whether two patterns match the same texts; whether matching or lexing some text never ends; whether a lexer tokenizes every text by maximal munch; whether its first None is the end for every text; whether a pattern is always preceded by another, and whether two patterns overlap.", "quantifier": "every list of regular expressions, every regex, every list of token patterns, every text, every hash order", "why_tests_cant": "Each answer speaks of all texts at once; the function computes it without trying them.", "anchors": ["pango-lexer/src/fsm/nfa/sim.rs", "pango-lexer/src/fsm/nfa/compiler.rs", "pango-lexer/src/lexer/mod.rs", "pango-lexer/src/regex/ast.rs"]}
{"id": "C120", "title": "Which outcomes some input has is computed from the table", "statement": "For every grammar for which a parser is built, with or without epsilon rules, computable functions of the parse table tell whether some input gets a tree, whether some input gets an error, whether some input makes the parser panic, and whether some input makes it run for ever; for the inputs made of any given list of tokens, and for all inputs if the list has the tokens of the table and one that equals none of them (if there is one). Hence it is computable whether the parser answers every input with a tree or an error.", "quantifier": "every grammar and start variable, every hash order, every lawful equality of tokens, every list of tokens, every input", "why_tests_cant": "The answers speak of all inputs at once, and running for ever cannot be observed.", "anchors": ["pango-parser/src/parser/slr.rs", "pango-parser/src/parser/table.rs"]}
{"id": "C121", "title": "Whether a parser is exact is computed", "statement": "For every grammar in which no reachable rule mentions epsilon or every reachable variable has a text, and every table built for it, a computable function of the grammar, the table and a list of tokens that covers all tokens is true if and only if the parser returns exactly the derivation trees of the sentences. Whether the grammar is of that kind is computed as well. For all other grammars the function is true only if the parser is exact.", "quantifier": "all grammars, terminals, lawful comparisons, hash orders, tables built and inputs", "why_tests_cant": "Exactness speaks of all inputs and all trees; no finite number of parses shows it.", "anchors": ["pango-parser/src/parser/slr.rs", "pango-parser/src/grammar.rs"]}
{"id": "C122", "title": "Whether a parser is built, and an exact one, is computed from the grammar", "statement": "Computable functions of the grammar, which build neither an automaton nor a table, tell whether Slr::new succeeds under every iteration order of the hash maps, whether it succeeds under some order, and whether it panics under some; and, if no reachable rule mentions epsilon or every reachable variable has a text, whether under every order the parser built returns exactly the derivation trees of the sentences.", "quantifier": "all grammars, lawful terminal comparisons and hash orders", "why_tests_cant": "A test sees one hash order and finitely many inputs; the statement is about all of them, and about all grammars.", "anchors": ["pango-parser/src/parser/slr.rs", "pango-parser/src/grammar.rs", "pango-parser/src/parser/table.rs"]}
{"id": "C123", "title": "Whether a grammar is SLR(1), and that the order does not matter, is computed", "statement": "Computable functions of the grammar tell whether it has an SLR(1) conflict, and whether Slr::new panics for the grammar that is wrapped with an end token as in C74; if it does not, and a third function finds neither epsilon nor useless variables, the wrapped parser is exact on all tokens followed by the end. If a fourth function returns true, Slr::new and parse give the same outcomes under all iteration orders of the hash maps.", "quantifier": "all grammars, lawful terminal comparisons, hash orders and inputs", "why_tests_cant": "A test sees one hash order, finitely many grammars and finitely many inputs; the functions are right for all of them.", "anchors": ["pango-parser/src/parser/slr.rs", "pango-parser/src/grammar.rs", "pango-parser/src/parser/table.rs"]}
{"id": "C124", "title": "Whether the order of the iterations matters is computed", "statement": "Two iteration orders of the hash maps under which Slr::new, or the parser for some input, behaves differently exist exactly if Slr::new succeeds under some order and panics under another, or succeeds under every order while the FOLLOW entry of the start variable depends on the order and some input gets a tree under some order. If no reachable rule mentions epsilon a function of the grammar tells which is the case, and if it returns false all orders behave alike on all inputs.", "quantifier": "all grammars, lawful terminal comparisons, pairs of hash orders and inputs", "why_tests_cant": "Hash orders cannot be chosen by a test, and a difference may show for one order and one input only; that there is none is a statement about all of them.", "anchors": ["pango-parser/src/parser/slr.rs", "pango-parser/src/grammar.rs", "pango-parser/src/parser/table.rs"]}
{"id": "C125", "title": "A right front end is recognised by computation", "statement": "Two functions of the patterns and the grammar recognise front ends that are right: if texts_right returns true, then under every hash order the lexer and the parser are built and for every text the parser returns a tree exactly if it is the derivation tree of the tokens that maximal munch of the patterns as written makes of the text; if front_right returns true for a new start variable, an end token and an unused token, the result for every text with the end character behind it is the one outcome that the patterns and the grammar prescribe. Each condition on the patterns and on the new symbols is computed exactly.", "quantifier": "all lists of patterns with their token functions, all grammars, lawful comparisons, hash orders and texts", "why_tests_cant": "The conclusion is about every text and every hash order; a test tries one text under the order the process happens to have.", "anchors": ["pango-lexer/src/lexer/mod.rs", "pango-lexer/src/fsm/nfa/sim.rs", "pango-parser/src/parser/slr.rs", "pango-parser/src/grammar.rs"]}
{"id": "C126", "title": "Which tokens the patterns can make is computed", "statement": "Whether a pattern is the first to match some text, and whether it is the first to match only one given character, is computed from the patterns. Hence, for tokens that do not depend on their text, it is computed whether no token equals the unused one and only the end character makes the end token. If no token depends on its text, a single computation on the patterns, the tokens and the grammar tells that the front end of C125 returns the prescribed outcome for every text and under every hash order.", "quantifier": "all lists of patterns with their token functions, all grammars, lawful comparisons, hash orders and texts", "why_tests_cant": "That no text whatever makes a certain token is a statement about infinitely many texts.", "anchors": ["pango-lexer/src/lexer/mod.rs", "pango-lexer/src/fsm/nfa/sim.rs", "pango-parser/src/parser/slr.rs", "pango-parser/src/grammar.rs"]}
{"id": "C127", "title": "Whether two lexers return the same tokens is computed", "statement": "For two lists of patterns that tokenize by maximal munch (itself computed) and whose tokens do not depend on their texts, a function of the patterns and the tokens returns true exactly if both lexers return the same tokens, with the same texts and positions, for every text; and then every parser returns the same on both.", "quantifier": "all pairs of lists of patterns and tokens, all texts, hash orders, tables and terminal comparisons", "why_tests_cant": "That two sets of patterns are interchangeable is a statement about infinitely many texts; a test compares them on a few.", "anchors": ["pango-lexer/src/lexer/mod.rs", "pango-lexer/src/fsm/nfa/sim.rs", "pango-lexer/src/fsm/nfa/compiler.rs"]}
{"id": "C128", "title": "Shortest counterexamples are computed", "statement": "A breadth-first search over the derivatives of the patterns terminates and returns a shortest text that only one of two patterns matches, that a pattern matches otherwise than it is written, that two patterns share, that becomes a token of a pattern behind others, or for which two lexers that tokenize by maximal munch return different tokens; and it returns none only if there is no such text.", "quantifier": "all patterns, lists of patterns, pairs of lexers with fixed tokens, and all texts", "why_tests_cant": "That no shorter text shows a fault, or that none does at all, is a statement about infinitely many texts.", "anchors": ["pango-lexer/src/lexer/mod.rs", "pango-lexer/src/fsm/nfa/sim.rs", "pango-lexer/src/fsm/nfa/compiler.rs"]}
{"id": "C129", "title": "A shortest text that loses a token is computed", "statement": "For every list of patterns the search of C128 returns a shortest text that begins with a token and for which nevertheless no call of the lexer ever returns a token; it returns none exactly if the lexer tokenizes every text by maximal munch.", "quantifier": "all lists of patterns that compile without a panic and cannot loop, all texts, numbers of calls and hash orders", "why_tests_cant": "That no shorter text loses a token, or that none does, is a statement about all texts.", "anchors": ["pango-lexer/src/lexer/mod.rs", "pango-lexer/src/fsm/nfa/sim.rs"]}
{"id": "C130", "title": "A shortest text with a token after None is computed", "statement": "For every list of patterns a function returns a shortest text for which a call of the lexer returns None and a later call returns a token, so that reading up to the first None loses it; it returns none only if there is no such text.", "quantifier": "all lists of patterns that compile without a panic and cannot loop, all texts, numbers of calls and hash orders", "why_tests_cant": "That the first None is the end, or that no shorter text shows the contrary, is a statement about all texts and numbers of calls.", "anchors": ["pango-lexer/src/lexer/mod.rs", "pango-lexer/src/fsm/nfa/sim.rs"]}
{"id": "C131", "title": "A shortest text that a lexer misreads is computed", "statement": "For a lexer that tokenizes by maximal munch and a list of patterns and tokens that says what is meant, a function returns a shortest text whose tokens are not those of a maximal munch with the languages these patterns are written for; it returns none only if the tokens are as meant for every text. Then, for a grammar that passes the test of C122, the parser returns exactly the derivation trees of the tokens that are meant.", "quantifier": "all lists of patterns with fixed tokens that meet C127's computed conditions, all lists of patterns with fixed tokens that say what is meant, all grammars, texts and hash orders", "why_tests_cant": "That a lexer reads every text as meant, or that no shorter text is misread, is a statement about all texts.", "anchors": ["pango-lexer/src/lexer/mod.rs", "pango-lexer/src/fsm/nfa/sim.rs", "pango-lexer/src/fsm/nfa/compiler.rs", "pango-parser/src/parser/slr.rs"]}
