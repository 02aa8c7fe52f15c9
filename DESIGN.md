# Formal model of exellentcoin26/pango in Rocq (Coq 8.16.1)

## 1. Trusted base

* Coq's kernel (8.16.1) and the `coqc` front end.
* Axioms: none of our own. `Print Assumptions` is placed under every property theorem; the expected
  answer is "Closed under the global context" everywhere (section 6 records the actual output).
* Two contracts of the user's code, as `HashMap` and the parser need them: `terminal_hash` agrees with
  `terminal_eq`, and functions given to `with_token`/`with_token_map` return (they do not panic; C69 drops this for the lexer). The former is
  proved to be enough, and shown to be needed, in C106. Where a theorem
  needs `terminal_eq` to be an equivalence it says so (`lawful teq`).
* The reading of /repo recorded in the comments of the model files. The model is hand written; nothing
  was extracted from or run against the Rust code.
* Modelling conventions listed in section 2.

## 2. Modelling conventions

* `char` is a code point in `N`; a `&str` is the list of its chars (the code only ever iterates `chars()`).
* `usize`/state ids/positions/counters are unbounded `nat` (overflowing them needs 2^64 steps;
  C105 bounds counters and token positions by the length of the text plus one). `u32`
  arithmetic, where the code can really overflow, is explicit in `N` with `mod 2^32`, and a build flag
  (`overflow_checks`) selects panic or wrap-around.
* `char::is_alphabetic` is an arbitrary function (field of the class `Env`): theorems hold for every
  Unicode table. `is_whitespace`, `is_ascii_digit`, `to_digit` are spelled out.
* A panic (`expect`, `panic!`, `unreachable!`, slice out of range, checked overflow) is the value `Panic` of
  the result type `res`; loops whose termination is not structural take fuel and return `Diverge` when the fuel is
  used up. "Terminates" is "some fuel gives a non-`Diverge` answer", "diverges" is "no fuel does".
  `Result` stays data.
* `HashMap`/`HashSet` contents are duplicate free lists. Iterating over one goes through an arbitrary
  permutation chosen by the class `HashOrder` (indexed by a time stamp), so theorems hold for every iteration order. In the parser's
  models no two iterations share an index (C95: they have every behaviour that arbitrary orders of all iterations allow). In NfaModel.v the index is the fuel; TickModel.v has the simulator and the lexer with a clock
  that gives every iteration an index of its own, and C88 shows that the results are the same. Orders used in refutations deviate
  from one fixed order per container at most for a map that is iterated over once, so the code can have them.
* Pointers (`NonNull<Body>`, `WSymbol`, `Terminal::T`) compare and hash by pointee in the code, so they are
  modelled by their pointee. PtrModel.v models the same functions with real pointers into a heap that can be freed; C73 shows that
  they do the same and never load a dangling pointer.
* User types: variables and terminals are types with decidable equality; `terminal_eq` is an arbitrary
  boolean equivalence that is implied by equality (the contract `HashMap` needs).

## 3. What is modelled

| Code | Model file |
|---|---|
| pango-lexer/src/iter/{peekable,cautious/*}.rs | Iter.v |
| pango-lexer/src/regex/{tokenizer,ast,parser}.rs | RegexModel.v |
| pango-lexer/src/fsm/nfa/{model,compiler,sim}.rs, fsm/traits.rs | NfaModel.v |
| pango-lexer/src/lexer/{input,mod}.rs | LexerModel.v |
| pango-lexer/src/lexer/mod.rs `Lexer::next` with generators that panic or do not return | AskModel.v |
| pango-lexer/src/lexer/mod.rs `Lexer::next` with a counter of the characters read | CountModel.v |
| pango-lexer/src/lexer/mod.rs `Lexer::next` with the number of runs at every character | RunsModel.v |
| fsm/nfa/sim.rs and lexer/mod.rs with a new hash order at every single iteration | TickModel.v |
| grammar.rs FIRST and FOLLOW, cfsm, parser/table.rs and Slr::new as programs that ask for the order of every iteration | OrderModel.v |
| regex/parser.rs, fsm/nfa/compiler.rs and `add_token` with a limited call stack | StackModel.v |
| `Slr::parse` with a limited stack of nodes | SizeModel.v |
| `Grammar::first_bodies`, `follow_set` and `ItemSet::from_incomplete_map` with counters of turns and bodies | WorkModel.v |
| `NfaSimulator`, `Nfa::get_state`, `Nfa::eps_closure` and `Lexer::next` with a count of what they look at | EffortModel.v |
| pango-parser/src/grammar.rs | GrammarModel.v |
| pango-parser/src/cfsm/{item,state,mod,dot}.rs | CfsmModel.v |
| pango-parser/src/parser/{table,slr}.rs, cst.rs | SlrModel.v |
| pango-parser/src/{cfsm,parser} with the raw pointers of the code and a heap | PtrModel.v |
| programs that make, use and drop automata and parsers | PtrWorld.v |
| pango-parser/src/parser/slr.rs reading from a `Lexer` | PangoModel.v |
| pango-lexer/src/fsm/nfa/dot.rs, pango-parser/src/cfsm/dot.rs, the derived Debug impls they print | DotModel.v |
| Display of the regex errors, pango-lexer/src/regex/parser.rs | ErrorModel.v |
| Debug of tokens, results, grammars, automata and parsers, and the debug builders of the standard library | DebugModel.v |
| Debug of regexes, their tokens and errors, inputs and runs | DebugRegexModel.v |
| what the keys of hash tables write into a hasher, hash tables, and pango-parser/src/parser with them | HashModel.v |
| pango-lexer/src/lexer/mod.rs `Lexer::next` with what the `dbg!` calls of fsm/nfa/sim.rs write | TraceModel.v |
| pango-parser/examples/expr.rs | ExprModel.v |
| every `#[test]` of /repo and both examples, evaluated on the model | RepoTests.v |

Not modelled: which characters `char::is_printable` takes
(a parameter of the texts), aliasing rules (Stacked Borrows), allocation sizes, `usize` overflow.

Specifications live in separate files that do not mention the model's helpers: SpecRegex.v (regular
languages, printing of regexes), SpecLexer.v (longest match, priority), SpecCfg.v (derivations, trees,
FIRST/FOLLOW by derivations, LR(0) items), SpecPattern.v (patterns the regex parser takes),
SpecDot.v (lines of a text, unescaped quotes), SpecPrefix.v (sentence prefixes, token sources),
SpecErrors.v (where a text can no longer be continued to a pattern), SpecNfa.v (texts matched and texts begun),
SpecMunch.v (maximal munch), SpecExpr.v (expressions of the example program), SpecCalls.v (all calls of a lexer),
SpecSpin.v and SpecStuck.v (texts on which matching and lexing never end),
SpecTokens.v (the tokens of every pattern text),
SpecPanic.v (the outcome of every pattern text), SpecMachine.v (the parser as a machine on symbols), SpecWhole.v (the calls of the lexer feeding that machine),
SpecCircle.v (parses that go round in circles), SpecAsk.v (when the functions that make the kinds are called, and what their failing does),
SpecCopies.v (shortest words to a set of items), SpecLaws.v (laws for rewriting regexes), SpecWrap.v (the textbook table, a grammar with an end token),
SpecPlain.v (pattern lists for which the lexer is maximal munch, by inspection),
SpecReads.v (how many characters a call of the lexer reads),
SpecDebug.v (Debug implementations as deriving makes them, grammars and automata up to order),
SpecSub.v (grammars with some of another's rules), SpecLists.v (pattern lists that differ in order, by a redundant pattern or in kinds),
SpecLines.v (texts with a place all tokens break at), SpecStack.v (how deeply the calls for a regex nest),
SpecSize.v (nodes and height of trees),
SpecFront.v (the outcome of a text for patterns and a grammar),
SpecKleene.v (textbook regular expressions and their words), SpecWrite.v (texts written token by token), SpecExtent.v (quantifiers, joints and literals of a regex, arrows of an automaton), SpecRegular.v (finite automata over tokens, their left and right linear grammars), SpecNamed.v (grammars with a variable for every terminal), SpecExact.v (where a call stops in vain), SpecWork.v (a family of grammars with about 2n rules of at most n + 2 symbols), SpecClean.v (pruned trees, cleaned calls), SpecOnce.v (the literals that can come next, settled regexes), SpecRight.v (rightmost derivations, valid items, viable prefixes), SpecTrace.v (what a debug build shows of every character fed), SpecCounter.v (adjacent positions), SpecHash.v (contract of hash and equality, searches, maps as functions), SpecOutcome.v (inputs that panic, inputs that never end, grammars with such inputs), SpecCfg.v (`entry_sure`, `entry_possible`), SpecLoose.v (the grammar of what a parser accepts), SpecCfg.v (`start_at_front`), SpecCrowd.v (how many of the literals that can come next share a character), SpecText.v (results that do not depend on the fuel), SpecCfg.v, SpecOutcome.v (variables that have a text), SpecCfg.v (derivation trees), SpecCfg.v (derivation trees), SpecSpin.v, SpecStuck.v, SpecWhole.v, SpecHang.v, SpecEffort.v, SpecQuery.v, SpecPossible.v, SpecExactness.v, SpecBuildable.v, SpecTextbook.v, SpecMatter.v, SpecCertify.v, SpecKinds.v, SpecAlike.v, SpecFind.v, SpecFind.v, SpecLate.v, SpecMisread.v.

## 4. How each property is proved

(full statements in properties.jsonl, theorem names in MANIFEST.json. "R": the statement is false of the code; a
`_refuted` theorem with a witness stands next to the strongest `_partial` theorem found)

* C01 model tokenizer and parser; printer as spec; induction over trees.
* C02 R (`a)b` is accepted and `)b` ignored). Partial: tokens = tokens of the regex ++ rest, rest empty or starting with `)`.
* C03 R (`()`, `|a`, `)` panic in the compiler; `a{4294967296}` overflows). Partial: exact characterisation of the panics.
* C04 fuel sufficiency for the parser, structural measure for the tokenizer.
* C05 R (`ab\` gives span (2,1)). Partial: spans tile up to a token that ran into the end of the pattern.
* C06 R (4294967296..4294967299). Partial: exact for values that fit; rejected for digit strings that never hit the window.
* C07 R (`\x41b`, `\` `u27A1b`). Partial: exact when the next char is not a hex digit.
* C08 corollary of C01 and C11.
* C09 direct, against set-theoretic spec.
* C10 edge-set characterisation of the compiler by induction over the regex.
* C11 R (`(a*b)+` does not match `b`). The language actually accepted is characterised for every regex
  (`C11_implemented_language`); it is the regular language when leading counted groups start with a literal or have a
  counter-insensitive quantifier. Method: residual languages of runs, one-step lemmas.
* C12 R (`(a*)*` on `a` has an infinite closure: proved for every fuel). Partial: terminates when bodies of quantified groups are not nullable. C62 has the exact condition.
* C13 simulator answers characterised by reachability, which does not mention the order.
* C14 R (`(a|[a])*` doubles the runs at each char). Partial: for every regex the number of different runs is polynomial.
* C15 from the reachability characterisation.
* C16, C17, C22, C23 invariants of the input iterator, for all patterns. C17 R (a character handed back twice is lost).
* C18, C19 from C11 machinery, R for the same reasons. C20 R at end of input (`a|abc` on `ab`); partial: None only if nothing matches or the scan ran to the end.
* C21 R (`?a`). Partial: stays None when the input is exhausted.
* C24, C25 refinement to lists.
* C26 characterisation of build over call sequences; `add_rules` is one call per body.
* C27, C28, C29 work-list invariants, soundness and completeness against derivations; termination by a lexicographic measure.
* C30-C33 invariants of closure and automaton construction; termination by BFS levels. C34 R (self loops duplicate states).
* C35 R (`S -> a b | a c`). Partial: success exactly when no two table insertions share a key.
* C36 R (`S -> a` has no accept). Table characterisation, accepts subject to a FOLLOW entry of the start variable.
* C37 R (`S -> a S c | b` accepts `a b`). Partial: grammars without epsilon whose start variable occurs only in front.
* C38 R (`S -> S b | A; A -> a` rejects `a`). Partial: without epsilon, trees that end with a token below the root.
* C39 R (`S -> a` panics on `a`). C40 R (`S -> A A a | b A a; A -> epsilon` loops on `b a`). Partial without epsilon
  (C40: and without unit cycles or unreachable variables).
* C41 R (`S -> A | B; A -> C; B -> C; C -> a` has two trees for `a`). Partial: variables followed by a terminal.
* C42 R (Ok or panic, and Err or panic, depend on the order). Partial when the FOLLOW entry of the start does not.
* C43 R (a lexical error counts as end of input). C44 simulation argument. C45 list induction. C46 induction.
* C47 the exact language of the parser without epsilon, by the correspondence of runs and trees.
* C48 soundness and completeness of the recursive descent parser against the relaxed grammar in SpecPattern.v, by induction on fuel.
* C49 the automaton of several regexes is the automaton of their alternation. C50 list inductions.
* C51, C52 the text is cut into lines; no piece has a line feed. C51 R for labels (a double quote is not escaped).
* C53 R (with epsilon: `S -> a A b | A d | S e; A -> epsilon | c` accepts `a d`; with a variable that derives nothing). Partial:
  without epsilon, all reachable variables productive; the stack spells a viable prefix, and viable prefixes begin sentences.
* C54 R is C40 R. Partial as C40: moves that neither shift nor shorten the stack follow an acyclic relation on the variables.
* C55 R (`[a-]b` and `ab(c` report another place). Partial: which position each kind of error has. Successful calls look at what they
  consume and one token more, so a failing call fails on every continuation. C56 a decimal number can be read back, and no message has a line feed.
* C57 R (`a?` can be fed `aa`). Partial: the soundness and completeness proofs of C11 with every state final, which gives the texts
  read along a regex (`begun`); without upper bounds these are the prefixes of matches.
* C59 C58 and C37-C40 put together. C60 an instance of it: the sentences of the example grammar are described by a recursive function.
* C61 each call of the lexer is a step of a reference lexer (`call`) that knows only the languages; the steps are shown to be deterministic. It explains the tokens in the counterexamples of C17, C19, C20 and C21. Termination is C12.
* C62 matching diverges, for every fuel and hash order, exactly on the texts with a `spinning` first part; stated on the regex (`spins`, `impl_spins` in `SpecSpin.v`). Proof: the states that can be passed any number of times without reading are the ones of quantified groups with nullable bodies (`bads`); they are reached exactly by the spinning texts; away from them a closure makes a bounded number of steps. For the lexer the condition is taken at the states of the reference lexer of C61 (`stuck`). `(a{0})*` never spins though its body is nullable.
* C63 the token list with positions of every text, as an inductive specification (`takes` has one rule per spelling, malformed ones included; `reads` gives the value of any digit string, with the wrap-around of unchecked builds; `crashes` the panics of checked ones). A token cut off by the end of the text reports the end position 1.
* C64 read, panic or rejection of every text and the outcome of `add_token`, from the tokens of C63. The analysis of failing calls (C55) is sharpened: a call that fails does so on every continuation whose next tokens do not panic, and only the end of a range makes the parser look at the token after the wrong one (`[a-]{4294967296}` panics, `[a-]b{4294967296}` is rejected).
* C65 every run of the parser is a run of a machine that knows only LR(0) items and FOLLOW, and back; for all grammars, so it also says what the parser does with epsilon bodies (they take an entry of the stack). Failures are told apart too: Err if the row has entries, a panic if the stack is too short; only for rows without entries does the outcome depend on the numbers of the states. C66 follows: a reduction always takes at least one entry, so a variable without children can only be the bottom entry.
* C67 R (`i -> a (i+1) | b (i+1)` for `i < n`: 2^n states, 4n+2 item sets). Partial: the states are numbered in the order of a breadth first tree; shortest words follow the tree, so they end in states of their own, and a state is made at most one level late.
* C68 (SlrSource.v: the parser over any source of tokens follows the machine; PipeWhole.v: the calls of the lexer are such a source, equal up to where one asks).
* C69 the functions that make the kinds are called at every match on the way, also for tokens that are not returned. `ask_next` is the plain `lex_next` on a lexer of results, cut at the first wrong answer; the list of answers is read off the matched first parts of the text. Whether a text is matched, fed or spins is decided without classical axioms (DecideProofs.v, by induction on the regex), so C62, C68 and C69 are equivalences (DecideLexer.v, DecideWhole.v).
* C70 completes C40 and C54 for all grammars: shifts and reductions of two or more entries are at most two per token; between them every reduction replaces the top entry by a variable, and once a variable comes again the machine of C65 repeats itself, as the trees do not matter. So linearly many moves decide whether the parser ends.
* C71 the lexer of C61/C62 looks at a pattern only through its implemented language, the texts that can be fed and the texts that spin. Each law
  is shown for everything these are made of (first parts that are literals, first parts that are repetitions, skippable, begun, spins), so the laws
  may be used inside a regex; l+ = l l* swaps literal and repeated first parts, so it holds for whole patterns only.
* C72 derivations, FOLLOW, LR(0) items, conflicts and the moves of the machine of C65 are carried along a renaming in both directions; with C65 and
  C70 the two parsers agree. The condition on the FOLLOW entry of the start variable is the one of C42.
* C73 refinement: each function with pointers is related to the one with values; a pointer stands for a value if it reads it in every memory that has the
  rules of the grammar in its block. The invariant of a program: live objects own distinct live blocks. A block is all that the rules of one `Grammar` have on
  the heap; that nothing writes to it is read off the code (there is no `&mut` to the rules after `build`). `follow_set` is safe code, its references are arbitrary ones to
  the right terminal. Comparing hash keys loads all keys here, in the code those with equal hashes, so the model loads more than the code.
* C74 the sentential forms, FOLLOW sets and LR(0) items of the wrapped grammar are those of the grammar, plus those of the two new rules; so its table is
  the textbook table of the grammar with the end token in place of the end of the input, and it meets the conditions of C37-C40.
* C75 C58 and C74: the last token of an accepted text is the end token, whose character stands only at the end, so the tokens cover the text; C43 fails without it.
* C76 each kind of plain pattern stays matched as long as it can be fed: eager by induction on the regex, words and quoted texts by what begins them; then C58.
* C77 R: patterns a, a*b on a^n c, each call reads to the c and hands all but one character back. The count of each call is the place where C57 stops; what is left
  shrinks by at least one per call (quadratic bound), and for steady patterns only one character is handed back (linear bound).
* C78 C63 bounds the numbers in the tokens, C48 gives the shape, C01 the way back; no new model or specification.
* C79 Each text is read back from the left: what may follow a value cannot continue it. For {:#?} the nested padding is first shown to be indentation by depth. `WSymbol` writes `{:?}` inside `{:#?}`: such parts are `Flat`, and two padded texts of values that are flat only at bare keys are equal exactly when their plain texts are.
* C80 The rows of both tables are permutations of each other by C79; rows made by `insert_action` have distinct keys, so look-ups agree. The start variable is not printed: it only matters if there is an accept action, which names it.
* C81 R: a start variable whose FOLLOW entry appears only in some hash orders, so that Slr::new succeeds for more rules and not for fewer. Otherwise FIRST, FOLLOW and
  items only grow with the rules, so a clash for fewer is a clash for more.
* C82 from the same growth: each move of the parser for fewer rules is one for more, so the run is the same.
* C83 R: `0 -> a` panics on a but accepts it with the rule `1 -> 0 b`, as the unusable rule gives the start variable a FOLLOW entry. Partial by C82, the reachable rules being the same.
* C84-C86 Two lexers whose lists match the same texts first and read along the same texts make the same calls (`imitates`), C19 and C57 give the calls. C85 R: `a` then `a{1}` on aa.
* C87 A call stops at a character no pattern reads along with what was before it, so the rest is lexed as a text of its own with positions moved (`later`); positions start again after a line break.
* C88 Both simulators reach the same sets of runs (reachability, as for C13), and answers depend on these sets only; the lexers are then related call by call.
* C89 The limited functions return what the others return or overflow (induction over the limit); room is bounded by the operator tokens left, and these by the characters of the pattern (C63).
* C90 A reduction takes at least one entry (bodies are not empty, C50) and leaves one; every move of the machine of C65 adds one node, and C70 bounds the moves.
* C91 C75 with C76, C74 (the table exists) and C64 (the patterns can be added); the outcome is unique because the trees of the wrapped grammar end in a leaf (C41), so it is the same for every hash order.
* C92 a pattern for all words but the empty one is built by recursion over the expression, so no part of it can be passed without reading and C11 and C12 apply; back, the language of impl_lang (C11) is written as an expression.
* C93 With steady patterns a token that does not go on with the next character does not go on at all, so a local condition gives maximal munch; the rest is C58 and C91.
* C94 Every call of the compiler adds the states and at most the arrows that are counted in the regex; the tokens of a regex are at least as many as its states, and every token has a character.
* C95 With the orders of a `HashOrder` the programs of OrderModel.v are the functions of the model (`run_slr_new`). Names of iterations are tails of call paths with counters that grow (`frugal`: no name is asked for twice), so any orders met on the way can be collected in one `HashOrder`, a permutation being stored as a list of indices.
* C96 Left linear grammars: the cursor of an item determines what was read (`left_items`), so determinism of the automaton rules out all clashes and C74 applies. Useless edges are removed with two closures (`close`), choices by subsets (`determined`). The right linear grammar has `q -> a` and `q -> a p` in one state.
* C97 The items of the named grammar are those of the grammar, and `inr t -> . t`, `inr t -> t .` (`items_un`); derivations map back (`steps_un`), so a clash gives a conflict of the grammar. Trees correspond node by node; the rest is C35 and C74.
* C98 Sufficiency is C20, C58 and C61. Necessity by the calls of C61 on chosen inputs: if `u` is matched and `u c` can be fed but is not matched, the input `u c` gives only `None` (`unmatched_calls`); if a call stops in vain after `v c` and `u` is matched, the input `v c u` gives `None` and then a token.
* C99 (refuted, with the strongest bounds that hold) `WorkModel.v` runs FIRST, FOLLOW and the item closure with counters; erasing the counters gives the original functions. `first_bodies` pushes the same suffix again whenever a variable in front of it grows, so the vectors of suffixes double along a chain: an invariant for each of three phases (visiting down the chain, becoming nullable up the chain, one terminal climbing the chain) gives at least 2^(n-1) bodies, whatever the iteration order. The number of turns is bounded with the potential pending + (n + 1) times (visited + sizes of the sets), because a dependency map has at most n + 1 keys.
* C100 Rules are kept with and without each nullable variable, then only those whose variables derive a text and that the start variable needs; the three sets are computed by `grow`, which is proved to end in the least closed set. Trees map by leaving out the empty parts (`prune_der`, `der_prune`). Steps of the clean grammar are steps of the grammar, so the forms of C74 carry over, and C37 to C41 give the result of the parser. `C100_slr` puts C97 on top: no table has to be assumed, only that the clean grammar is SLR(1).
* C101 `openers e k` lists the literals that can read next at the start of `e`, one entry for each silent way; `settled` asks that after every literal no character is in two of them (the deterministic, or one-unambiguous, regexes, except that the beginning is free). The proof weighs the runs of a closure: `tally` and `limited` compute an upper bound along the regex for any weight of states and literals (`machine_cap`). With weight 1 for the literals that take a character it is at most 1, so the number of ways to read never grows after the first character; with weight 1 for states it bounds the closure. The bound depends on the regexes only. RunsModel.v is the lexer with the number of runs at every character, and C77 gives the number of characters.
* C102 `rsteps` counts the steps of a rightmost derivation, `valid g u d` says that one of them uses the rule of `d` when `u` is all before the cursor. Without epsilon every valid item is in `lr0` (C33); the other direction needs that reachable variables are productive, since all that stands behind the variable has to become a text first (`C102_useless`). The runs are those of the machine of C65, followed from the end: a shift moves a token, a reduction is one step.
* C103 As C79, type by type: every derived implementation is tame and injective, so both texts are. `plain (dbg_input i) = show_input i` ties the labels of the dot texts (C51), which were modelled by hand, to the same builders.
* C104 `trace_loop` is `lex_loop` with the text of `dbg!`; forgetting the text gives `lex_loop`. The text is cut into lines from the left: a {:#?} text followed by a newline can be read back. What is shown is related to the languages with the invariant of the loop (as in C77), and the last yes is the end of the token (C61).
* C105 A run that leaves a state by an epsilon edge does not come back to it without reading, unless over a group that can go around without reading (then C62 says that the simulator never returns). By induction on the regex: if the state can be reached from the beginning of a regex and its end from the state, both without reading, the regex is nullable. So between two times a state is left a character is read. The positions follow from C61.
* C106 A table keeps with every entry the hash of its key, and no two entries have equal keys. Then at most one entry has a key equal to the one searched for, it has the same hash by the contract, and the search looks at it. The parser with hash tables is related to the one with lists step by step; the finer equality is the same proof with the equality the searches see.
* C107 Every configuration the parser reaches holds derivation trees of a first part of the input, and every such part is reached if the next token can follow its last variable. A panic is a configuration whose state has no row; a circle of C70 leaves the number of symbols unchanged, so all its reductions are by unit rules.
* C108 `follow_set` gives a variable an entry if something stands after it in a body, and hands entries on along rules that end with a variable. A chain of one such rule is always noticed, a longer one only if each dependency is visited after the one before it. Orders that visit the dependencies forwards and backwards along the chains give all and the fewest entries.
* C109 The accept of the code does not look at what is below the body on the stack. By C47 that is the text of a viable prefix, and viable prefixes are the words of chains of rules, so the whole is a grammar with a variable `Before v` for every v.
* C110 If the start variable can stand behind something, C109 puts a text of it before a sentence and the tree is the same; if a body ends with a variable, its trees are not returned. Otherwise C37 and C38 apply. With a rule that mentions epsilon, some tree has a part made by it; a parser that returned this tree would have read the body without the epsilon and reduced another, shorter body at the same place, so the two reductions clash.
* C111 The weights of C101 with any number of ways in place of one: the runs that can read the next character are at most that many for every run that read this one; the runs that cannot are bounded by the closures. For all regexes (GrowthProofs.v): before the next character is read, a counter stays, goes up by one, or is 0 or 1 (by the lemma of C105 that a state left by an epsilon edge is not come back to), so one closure has at most s5^s runs.
* C112 C59 puts the tokens of maximal munch in place of the text; C107 and C110 say what becomes of them.
* C113 As C110, but the texts before the start variable are only made from variables that have one; without a text for the start variable nothing is ever returned.
* C114 The table is a machine on a stack of state numbers. A variable of the grammar stands for what is read until a state is taken from the stack, with the token ahead before and after; the trees of that grammar are the runs.
* C115 The grammar of C114 and the pumping lemma, proved for the trees of any grammar: among the variables on a longest path of a tall tree one repeats; while the parts around the lower one are empty the tree is made smaller.
* C116 What the runs reached without reading differ from the run they come from is at most one on every counter or a restart (C111), unless some counter grows without bound; so the runs of a closure that ends are among n * 5^n, which bounds the turns of its loop. The moves of the parser are bounded by the circles of C70.
* C117 Each part of the specification of spinning (C62) is a language; a function computes whether it has a text at all, by induction over the regex. Whether a literal fits some character is a parameter, because it depends on which characters are alphabetic.
* C118 EffortModel.v is the simulator and the lexer with a count of the states compared, transitions and runs looked at, and counters cloned. Counting is shown to change nothing. Every turn of a worklist adds one run to its result, so the steps are a factor of the automaton times the number of runs, which C101 and C111 bound.
* C119 The implemented language of a pattern and what can be read along it are regular expressions over literals (C92). What is left of one after a character is one of finitely many expressions, and a character is like the last place before it where a literal changes, so a search over sets of what is left is finite and exact. The only parameter is the list of places where being alphabetic changes.
* C120 The parser is a machine with a finite control and a stack of states. Which control and top can be reached, and with which control a top is uncovered again, are finitely many facts that are computed until nothing is added. The parser runs for ever exactly if it reaches an entry that reductions of one entry replace again and again, since every reduction takes at least one entry.
* C121 The variables that have a text, those of sentential forms, and those that stand behind something that has a text are computed until nothing is added; with C120 they tell whether C110's and C113's conditions hold.
* C122 Two items share a state exactly if the pair is reached from pairs of start items by closing one of them or by moving both over the same symbol, so pairs are collected instead of states; FIRST, FOLLOW and the entries are collected as least sets. SpecBuildable.v uses nothing of the model but the type of grammars.
* C123 The items after a word are closed and moved symbol by symbol, and the variables that can end a sentential form are collected as a least set; with the pairs and sets of SpecBuildable.v they decide the conditions of C74. SpecTextbook.v uses nothing of the model but the type of grammars.
* C124 By C65's machine two parsers of one grammar can differ only where one of them accepts, so they agree on every input that gets no tree. An order that gives the start variable no entry (C108) never accepts. Without epsilon, some input gets a tree exactly if a rule of the start variable ends with a terminal and has a text.
* C125 Puts together the decision procedures for patterns (C119) and grammars (C122, C123): if they all say yes, the conclusions of C91 and C112 hold for every text, with the languages as written and without the restriction to ordinary patterns.
* C126 With C119's decision procedure: the texts a pattern is the first to match are a Boolean combination of regular languages, so whether there is one, or one other than a given character, is decided. This removes C125's hypothesis about the token functions for tokens that are not made of their text.
* C127 If two lexers tokenize by maximal munch, a text that is matched is its own first token. So they agree on every text exactly if they match the same texts and the first patterns to match a text have equal tokens, which C119's decision procedure settles for each pair of patterns.
* C128 The decision procedure of C119 says whether a text of some kind exists. Searching the derivatives breadth first also returns one, and a shortest one: where two patterns differ, where a pattern is not matched as written, what two patterns share, what still becomes a token behind other patterns, and where two lexers part.
* C129 The lexer keeps reading in the hope of a longer match and returns nothing if the text ends there (C20, C98). The search of C128 finds a shortest text for which that happens, and finds none exactly if the lexer tokenizes every text by maximal munch.
* C130 A call that can read no further without a match returns `None` although the text goes on (C21, C98). A shortest text that makes the lexer return a token after its first `None` is a shortest dead end followed by a shortest token, and both are found by the search of C128.
* C131 What the automata match need not be what the patterns are written for (C11). For a lexer that tokenizes by maximal munch and a second list of patterns that says what is meant, the search of C128 finds a shortest text whose tokens are not as meant. The second list may be the lexer's own patterns.
* C58 R is C17 R. Partial for patterns that stay matched as long as they can be fed (`steady`): assembled from C12, C17-C20.

The hypotheses `resumable` and `steady` of the lexer properties speak about the regexes only: `feedable` is `begun` by one of them
(for leading counted groups with the counting of C11), and C57 shows that this is what the simulator does.

Structure of the parser proofs: SlrTable/SlrNew read the table off the automaton, SlrRun shows that a run keeps a
stack spelling a path of the automaton, SlrMoves turns table moves into moves on items, SlrSim simulates a tree by moves
and back, SlrTerm bounds the moves, SlrFinal assembles the statements about `Slr::new` and `Slr::parse`.

## 5. Files

`*Model.v` and Iter.v: the code. `Spec*.v`: specifications. `Props*.v`: the property theorems with their examples, nothing else.
`*Witness.v`: concrete lexers and grammars for examples and refutations. Everything else: proofs.

## 6. Print Assumptions

Every property theorem has `Print Assumptions` beneath it; the build prints "Closed under the global context" for each of
them, so no axiom of the standard library is used either. (`coqchk` over the whole build lists seven constants
`Coq.ssr.ssrunder.Under_rel.*`: they are opaque module fields of a library file that the standard library loads; no theorem here depends on them.)

## 7. Mutation tests

seeded/LOG.jsonl has one line per deliberately wrong program: a definition of the model is edited the way a bug in the code
would look, everything is rebuilt, every proof that no longer goes through is replaced by `Admitted`, and the property
theorems that then depend on an admitted lemma are recorded. A line marked `undetermined` is an attempt whose build did not
get through (its note says where), so it shows nothing about the property theorems.
