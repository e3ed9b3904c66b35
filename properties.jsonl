{"id": "C01", "title": "Dfa::accepts decides the table's language", "statement": "For a valid DFA, accepts(w) returns true iff following the transition table from the initial state along w ends in an accepting state; a word containing an element that is not in the alphabet is rejected; the call never panics.", "quantifier": "every valid DFA and every list of strings, whether or not over the alphabet", "why_tests_cant": "The language is an infinite set of words; tests only sample words.", "anchors": ["dandy/src/dfa/mod.rs:788-792 Dfa::accepts", "dandy/src/dfa/eval.rs:41-56 DfaEvaluator::step", "dandy/src/dfa/eval.rs:58-66 step_multiple", "dandy/src/dfa/eval.rs:14-16 is_accepting"]}
{"id": "C02", "title": "DFA step-by-step evaluation agrees with accepts, unknown elements are final", "statement": "Stepping a DFA evaluator one element at a time, stepping it with step_multiple, and calling accepts give the same verdict; the state returned by step is the state the table prescribes; after an element outside the alphabet the evaluator reports no current state, rejects, and every later step returns None.", "quantifier": "every valid DFA, every sequence of step calls (history of elements)", "why_tests_cant": "Quantifies over all call histories of a stateful evaluator.", "anchors": ["dandy/src/dfa/eval.rs:41-56 DfaEvaluator::step", "dandy/src/dfa/eval.rs:58-66 step_multiple", "dandy/src/dfa/eval.rs:18-24 current_state", "dandy/src/dfa/eval.rs:14-16 is_accepting", "dandy/src/dfa/eval.rs:31-39 step_all"]}
{"id": "C03", "title": "Nfa::accepts decides the existence of an accepting run", "statement": "For a valid NFA (with or without epsilon moves), accepts(w) is true iff there is some sequence of transitions, interleaved with any number of epsilon moves, from the initial state to an accepting state spelling w; words with elements outside the alphabet are rejected; the call terminates and never panics even with epsilon cycles.", "quantifier": "every valid NFA, every word", "why_tests_cant": "Infinite word set and arbitrary epsilon cycles.", "anchors": ["dandy/src/nfa/mod.rs:1126-1130 Nfa::accepts", "dandy/src/nfa/eval.rs:44-61 NfaEvaluator::step", "dandy/src/nfa/eval.rs:73-88 include_closure", "dandy/src/nfa/eval.rs:15-21 is_accepting"]}
{"id": "C04", "title": "NFA evaluator histories", "statement": "After any sequence of step calls over the alphabet, the evaluator's current states are exactly the states reachable by some run over the elements seen so far; once an element outside the alphabet has been seen the evaluator never accepts again.", "quantifier": "every valid NFA, every history of step calls", "why_tests_cant": "Quantifies over all call histories.", "anchors": ["dandy/src/nfa/eval.rs:44-61 NfaEvaluator::step", "dandy/src/nfa/eval.rs:63-71 step_multiple", "dandy/src/nfa/eval.rs:34-42 step_all", "dandy/src/nfa/eval.rs:30-32 current_states_idx"]}
{"id": "C05", "title": "Epsilon closure is exact", "statement": "Nfa::closure(q) returns None iff q is not a state index; otherwise it returns exactly the set of states reachable from q by zero or more epsilon moves, and terminates on epsilon cycles.", "quantifier": "every valid NFA and every index", "why_tests_cant": "Arbitrary graphs and cycles.", "anchors": ["dandy/src/nfa/mod.rs:1166-1184 Nfa::closure"]}
{"id": "C06", "title": "DFA validation accepts exactly the well-formed tables, and faithfully", "statement": "Converting a parsed DFA succeeds iff no alphabet element is repeated, no state name is repeated, every row has one target per element, every target is a defined state, and exactly one row is initial; on success the DFA has the same alphabet, the same states in the same order with the same flags, and each transition points to the row with the given name.", "quantifier": "every parsed table", "why_tests_cant": "All tables of all sizes.", "anchors": ["dandy/src/dfa/parse.rs:24-109 TryFrom<ParsedDfa> for Dfa"]}
{"id": "C07", "title": "NFA validation accepts exactly the well-formed tables, and faithfully", "statement": "Same for NFAs: additionally the epsilon column appears at most once, epsilon is not an element of the resulting alphabet, and the epsilon column's sets become the epsilon transitions.", "quantifier": "every parsed table", "why_tests_cant": "All tables of all sizes.", "anchors": ["dandy/src/nfa/parse.rs:24-144 TryFrom<ParsedNfa> for Nfa"]}
{"id": "C08", "title": "Validation errors tell the truth", "statement": "Whenever conversion of a parsed DFA or NFA fails, the reported error names a real defect of the table: the named element is repeated, the named state is defined twice, the named row has the reported (wrong) number of entries, the named target is not a state, there is no initial row, or there are at least two. Of several defects the first is reported: a repeated header entry before a repeated state name, both before defects of rows, rows from top to bottom, in a row the number of entries before the first unknown target from left to right and that before a second initial mark, and a missing initial row last.", "quantifier": "every parsed table that is rejected, and every combination of defects", "why_tests_cant": "All invalid tables.", "anchors": ["dandy/src/dfa/parse.rs:9-22 DfaParseError", "dandy/src/nfa/parse.rs:9-22 NfaParseError"]}
{"id": "C09", "title": "A DFA's table re-parses to the very same DFA", "statement": "For every valid DFA with a non-empty alphabet whose names and elements are legal tokens, parsing to_table() or ascii_table() and validating gives back exactly the same DFA (same alphabet order, state order, names, flags and transitions).", "quantifier": "every such DFA, both arrow styles", "why_tests_cant": "Strings of all shapes; proptest samples.", "anchors": ["dandy/src/dfa/mod.rs:857-859 Dfa::to_table", "dandy/src/dfa/mod.rs:863-865 ascii_table", "dandy/src/dfa/mod.rs:867-892 gen_table", "dandy/src/table/mod.rs:22-50 Table::to_string", "dandy/src/parser/fa.rs:64-79 full_dfa", "dandy/src/dfa/parse.rs:1-109"]}
{"id": "C10", "title": "An NFA's table re-parses to the very same NFA", "statement": "For every valid NFA whose names and elements are legal tokens, parsing to_table() or ascii_table() and validating gives back exactly the same NFA, including epsilon transitions and the order of target sets.", "quantifier": "every such NFA, both styles", "why_tests_cant": "Strings of all shapes.", "anchors": ["dandy/src/nfa/mod.rs:1187-1189 Nfa::to_table", "dandy/src/nfa/mod.rs:1193-1195 ascii_table", "dandy/src/nfa/mod.rs:1197-1232 gen_table", "dandy/src/table/mod.rs:1-51", "dandy/src/parser/fa.rs:10-25 full_nfa", "dandy/src/nfa/parse.rs:1-144"]}
{"id": "C11", "title": "Every table the library prints re-parses (as documented)", "statement": "The documentation says the table of any DFA can be parsed by Dandy into this very same DFA again; this must hold for every DFA obtainable through the public API, including those made from regular expressions.", "quantifier": "every DFA obtainable through the API", "why_tests_cant": "Depends on all ways of constructing automata.", "anchors": ["dandy/src/dfa/mod.rs:857-859 Dfa::to_table doc", "dandy/src/regex/mod.rs:104-155 Regex::to_nfa"]}
{"id": "C12", "title": "DFA equivalence is language equality", "statement": "a.equivalent_to(b) is true iff a and b have the same set of alphabet elements (order ignored) and accept exactly the same words; it terminates and never panics.", "quantifier": "every pair of valid DFAs", "why_tests_cant": "Two infinite languages are compared.", "anchors": ["dandy/src/dfa/mod.rs:899-931 Dfa::equivalent_to"]}
{"id": "C13", "title": "NFA equivalence is language equality", "statement": "Same for Nfa::equivalent_to, with epsilon moves.", "quantifier": "every pair of valid NFAs", "why_tests_cant": "Two infinite languages are compared.", "anchors": ["dandy/src/nfa/mod.rs:1237-1272 Nfa::equivalent_to"]}
{"id": "C14", "title": "DFA to NFA conversion is exact", "statement": "Dfa::to_nfa yields a valid NFA without epsilon moves with the same alphabet, state names, order and flags, which accepts exactly the same words.", "quantifier": "every valid DFA, every word", "why_tests_cant": "Infinite word set.", "anchors": ["dandy/src/dfa/mod.rs:772-784 Dfa::to_nfa", "dandy/src/dfa/mod.rs:273-289 From<DfaState> for NfaState"]}
{"id": "C15", "title": "Subset construction preserves the language", "statement": "Nfa::to_dfa terminates and yields a valid DFA over the same alphabet accepting exactly the NFA's language; its initial state is state number 0 and is named 0, state number i is named i, and all its states are reachable.", "quantifier": "every valid NFA, every word", "why_tests_cant": "Infinite word set, exponential state space.", "anchors": ["dandy/src/nfa/mod.rs:1057-1122 Nfa::to_dfa"]}
{"id": "C16", "title": "Reachability is exact", "statement": "reachable_state_idx returns exactly the states reached by some word (for NFAs: by some run), unreachable_state_idx exactly the complement, regardless of hash iteration order, and the _states variants list the same states.", "quantifier": "every valid DFA/NFA, every hash iteration order", "why_tests_cant": "All graphs and all hash orders.", "anchors": ["dandy/src/dfa/mod.rs:713-724 Dfa::reachable_state_idx", "dandy/src/dfa/mod.rs:687-692 unreachable_state_idx", "dandy/src/dfa/mod.rs:704-709 reachable_states", "dandy/src/dfa/mod.rs:678-683 unreachable_states", "dandy/src/nfa/mod.rs:992-1011 Dfa::reachable_state_idx", "dandy/src/nfa/mod.rs:966-971 unreachable_state_idx", "dandy/src/nfa/mod.rs:983-988 reachable_states", "dandy/src/nfa/mod.rs:957-962 unreachable_states"]}
{"id": "C17", "title": "Removing unreachable states is invisible to the language", "statement": "remove_unreachable_states never panics, keeps exactly the reachable states in their original order with their names and flags, and preserves the language.", "quantifier": "every valid DFA/NFA, every word, every hash order, debug and release", "why_tests_cant": "All automata and words; index remapping errors only show for particular layouts.", "anchors": ["dandy/src/dfa/mod.rs:672-675 remove_unreachable_states", "dandy/src/dfa/mod.rs:742-767 remove_states", "dandy/src/nfa/mod.rs:951-954 remove_unreachable_states", "dandy/src/nfa/mod.rs:895-920 remove_states"]}
{"id": "C18", "title": "Emptiness test is exact", "statement": "has_reachable_accepting_state is true iff the automaton accepts at least one word (DFA and NFA).", "quantifier": "every valid automaton", "why_tests_cant": "Infinite word set.", "anchors": ["dandy/src/dfa/mod.rs:696-701 Dfa::has_reachable_accepting_state", "dandy/src/nfa/mod.rs:975-980 Nfa::has_reachable_accepting_state"]}
{"id": "C19", "title": "State equivalence classes are the Myhill-Nerode classes", "statement": "state_equivalence_classes_idx returns non-empty disjoint sets covering all states, and two states are in the same set iff no word distinguishes them; the partition refinement terminates.", "quantifier": "every valid DFA, every word", "why_tests_cant": "Distinguishing words are unbounded; worklist bugs show only on special graphs.", "anchors": ["dandy/src/dfa/mod.rs:617-669 Dfa::state_equivalence_classes_idx"]}
{"id": "C20", "title": "Merging non-distinguishable states preserves the language", "statement": "merge_nondistinguishable_states never panics, preserves the language and the alphabet, and leaves no two distinct states that are non-distinguishable, whichever representative the hash order picks.", "quantifier": "every valid DFA, every word, every hash order", "why_tests_cant": "Representative choice depends on random hash seeds.", "anchors": ["dandy/src/dfa/mod.rs:579-600 Dfa::merge_nondistinguishable_states"]}
{"id": "C21", "title": "minimize preserves the language and is minimal", "statement": "minimize preserves the language and alphabet and yields a valid DFA with the fewest states of any DFA over that alphabet with that language; all its states are reachable.", "quantifier": "every valid DFA, every competing DFA, every hash order", "why_tests_cant": "Minimality quantifies over all other DFAs.", "anchors": ["dandy/src/dfa/mod.rs:572-575 Dfa::minimize"]}
{"id": "C22", "title": "The minimal DFA is unique", "statement": "Minimizing two equivalent DFAs (or the same DFA under different hash orders) yields DFAs with the same number of states that are isomorphic: a bijection of states preserving initial state, acceptance and every transition.", "quantifier": "every pair of equivalent valid DFAs, every pair of hash orders", "why_tests_cant": "Quantifies over all equivalent presentations.", "anchors": ["dandy/src/dfa/mod.rs:572-575 Dfa::minimize"]}
{"id": "C23", "title": "invert complements", "statement": "After invert, a word over the alphabet is accepted iff it was rejected before; words with foreign elements stay rejected; names, order and transitions are unchanged; inverting twice restores the DFA.", "quantifier": "every valid DFA and word", "why_tests_cant": "Infinite word set.", "anchors": ["dandy/src/dfa/mod.rs:317-321 Dfa::invert"]}
{"id": "C24", "title": "DFA product construction follows both automata", "statement": "product_construction returns None iff the alphabets differ as sets; otherwise a valid DFA over self's alphabet that accepts w iff the combinator applied to the states both DFAs reach on w says so (w over the alphabet), with all states reachable.", "quantifier": "every pair of valid DFAs, every combinator, every word, every hash order", "why_tests_cant": "Infinite word set.", "anchors": ["dandy/src/dfa/mod.rs:452-552 Dfa::product_construction"]}
{"id": "C25", "title": "union, intersection, difference and symmetric difference are the Boolean operations", "statement": "A.union(B), intersection, difference, symmetric_difference return None iff the alphabets differ; otherwise accept w iff (A or B), (A and B), (A and not B), (A xor B) accept w, also when the alphabets are ordered differently.", "quantifier": "every pair of valid DFAs, every word", "why_tests_cant": "Infinite word set.", "anchors": ["dandy/src/dfa/mod.rs:350-352 Dfa::union", "dandy/src/dfa/mod.rs:381-383 intersection", "dandy/src/dfa/mod.rs:412-414 difference", "dandy/src/dfa/mod.rs:443-445 symmetric_difference"]}
{"id": "C26", "title": "State names stay unique", "statement": "Product constructions, subset construction, NFA union, epsilon removal and regex conversion always produce pairwise distinct state names, for every hash order and every choice of names in the inputs.", "quantifier": "every valid input automata, every hash order", "why_tests_cant": "Name collisions appear only with adversarial names.", "anchors": ["dandy/src/dfa/mod.rs:452-552 product_construction names", "dandy/src/nfa/mod.rs:345-416 union", "dandy/src/nfa/mod.rs:938-947 fresh_name", "dandy/src/nfa/mod.rs:475-676 product_construction names", "dandy/src/nfa/mod.rs:756-887 remove_epsilon_moves", "dandy/src/regex/mod.rs:104-155 to_nfa"]}
{"id": "C27", "title": "NFA union", "statement": "A.union(B) fails, returning both operands unchanged, iff the alphabets differ as sets; otherwise it yields a valid NFA accepting exactly the words accepted by A or B, also when the alphabets are ordered differently: the states and moves of both side by side and one new initial state, called s_new or else by the smallest free number, with an epsilon move to either initial state.", "quantifier": "every pair of valid NFAs, every word", "why_tests_cant": "Infinite word set; column reordering depends on alphabet permutation.", "anchors": ["dandy/src/nfa/mod.rs:345-416 Nfa::union"]}
{"id": "C28", "title": "NFA intersection", "statement": "A.intersection(B) is None iff the alphabets differ as sets; otherwise it yields a valid NFA accepting exactly the words accepted by both.", "quantifier": "every pair of valid NFAs (with epsilon moves), every word", "why_tests_cant": "Infinite word set.", "anchors": ["dandy/src/nfa/mod.rs:450-455 Nfa::intersection", "dandy/src/nfa/mod.rs:475-676 product_construction"]}
{"id": "C29", "title": "NFA product construction", "statement": "With the or-combinator the product accepts exactly the union; with any combinator f true only when both states are present, it accepts w iff some pair of states reachable on w satisfies f.", "quantifier": "every pair of valid NFAs, every combinator, every word", "why_tests_cant": "Infinite word set.", "anchors": ["dandy/src/nfa/mod.rs:475-676 Nfa::product_construction"]}
{"id": "C30", "title": "Epsilon removal preserves the language", "statement": "remove_epsilon_moves never panics, terminates, leaves no epsilon transitions (has_epsilon_moves is false), keeps the alphabet, yields a valid NFA, and preserves the language; an NFA without epsilon moves is left untouched.", "quantifier": "every valid NFA, every word, every hash order", "why_tests_cant": "Infinite word set; dead-state corner cases.", "anchors": ["dandy/src/nfa/mod.rs:756-887 Nfa::remove_epsilon_moves"]}
{"id": "C31", "title": "optimize preserves the language", "statement": "optimize leaves a valid NFA without epsilon moves accepting the same words.", "quantifier": "every valid NFA, every word, every hash order", "why_tests_cant": "Infinite word set.", "anchors": ["dandy/src/nfa/mod.rs:681-684 Nfa::optimize"]}
{"id": "C32", "title": "Epsilon removal removes dead states as documented", "statement": "After remove_epsilon_moves removed epsilon moves, every non-initial, non-accepting state still has a transition, in the sense of the documented definition of dead states (no set of remaining non-initial non-accepting states has all its transitions exhausted within states already dead).", "quantifier": "every valid NFA with epsilon moves", "why_tests_cant": "Fixpoint over arbitrary graphs.", "anchors": ["dandy/src/nfa/mod.rs:756-887 Nfa::remove_epsilon_moves doc"]}
{"id": "C33", "title": "Word enumeration is sound", "statement": "Every word produced by word_component_indices / word_components / words on an NFA without epsilon moves is accepted by the NFA.", "quantifier": "every valid NFA without epsilon moves, every number of next() calls", "why_tests_cant": "Unbounded iteration history.", "anchors": ["dandy/src/nfa/words.rs:94-127 WordComponentIndices::put_next", "dandy/src/nfa/words.rs:129-195 next_word", "dandy/src/nfa/words.rs:198-243 min_word"]}
{"id": "C34", "title": "Word enumeration is complete, ordered and duplicate-free", "statement": "The iterator yields every accepted word exactly once, in order of length and, within a length, in the lexicographic order induced by the alphabet order.", "quantifier": "every valid NFA without epsilon moves, every accepted word, every prefix of the iteration", "why_tests_cant": "Infinite streams: a test can only see a prefix.", "anchors": ["dandy/src/nfa/words.rs:1-407"]}
{"id": "C35", "title": "Word enumeration stops exactly when the language is exhausted", "statement": "next() returns None only after all accepted words have been yielded (in particular iff the remaining language is empty), and then returns None forever; it never panics on an NFA without epsilon moves, and constructing the iterator panics iff the NFA has epsilon moves.", "quantifier": "every valid NFA, every history of next() calls", "why_tests_cant": "Needs the pumping argument about consecutive empty cross-sections.", "anchors": ["dandy/src/nfa/words.rs:94-127 put_next num_cec loop", "dandy/src/nfa/words.rs:292-315 new"]}
{"id": "C36", "title": "Regex to NFA is correct", "statement": "regex.to_nfa() is a valid NFA whose alphabet is exactly the set of characters occurring in the regex in order of first occurrence, without repetitions, and which accepts exactly the words matched by the regex.", "quantifier": "every regex tree (also hand-built ones with empty sequences/alternations), every word", "why_tests_cant": "All trees and infinite word sets.", "anchors": ["dandy/src/regex/mod.rs:104-155 Regex::to_nfa", "dandy/src/regex/mod.rs:215-309 tree_to_nfa"]}
{"id": "C37", "title": "Regex parser implements the documented grammar", "statement": "Printing any regex in the documented concrete syntax (reserved characters escaped) and parsing it yields a regex with the same language: precedence of star/plus over sequence over alternation, grouping, escapes, epsilon and empty set.", "quantifier": "every text and every segmentation into graphemes that divides texts (so every text has exactly one list of tokens), including reserved characters followed by combining marks", "why_tests_cant": "All expressions of all depths.", "anchors": ["dandy/src/parser/regex.rs:1-106"]}
{"id": "C38", "title": "Regex::to_string re-parses to an equivalent regex", "statement": "For every parsed regex, parsing to_string() succeeds and gives an equivalent regex.", "quantifier": "every regex obtainable by parsing", "why_tests_cant": "All expressions.", "anchors": ["dandy/src/regex/mod.rs:158-162 Regex::to_string", "dandy/src/regex/mod.rs:164-209 build_string", "dandy/src/parser/regex.rs:1-106"]}
{"id": "C39", "title": "Parsers are total", "statement": "Parsing any text as DFA, NFA or regex terminates with either a value or an error; it never panics or loops.", "quantifier": "every input string", "why_tests_cant": "All strings.", "anchors": ["dandy/src/parser/fa.rs:1-165", "dandy/src/parser/regex.rs:1-106", "dandy/src/parser/mod.rs:1-123"]}
{"id": "C40", "title": "Comments, blank lines and spacing are irrelevant", "statement": "Inserting blank or comment-only lines, trailing comments, or extra spaces/tabs between tokens does not change the result of parsing a DFA or NFA table, and line endings may be LF or CRLF.", "quantifier": "every table of legal tokens and every layout", "why_tests_cant": "All layouts.", "anchors": ["dandy/src/parser/fa.rs:146-157 space_comment_line", "dandy/src/parser/fa.rs:159-161 space_comment", "dandy/src/parser/fa.rs:89-110 dfa_line", "dandy/src/parser/fa.rs:41-62 nfa_line"]}
{"id": "C41", "title": "Everything reachable through the API is valid", "statement": "Every DFA/NFA built by parsing, from a regex, or by any sequence of library operations is valid: initial index in range and matching the initial flag, all transition targets in range, one transition (set) per element, alphabet without repetitions, unique names.", "quantifier": "every finite sequence of API operations", "why_tests_cant": "All histories of operations.", "anchors": ["dandy/src/dfa/mod.rs:1-952", "dandy/src/nfa/mod.rs:1-1300", "dandy/src/regex/mod.rs:1-310", "dandy/src/dfa/parse.rs:1-109", "dandy/src/nfa/parse.rs:1-144"]}
{"id": "C42", "title": "Wasm handles", "statement": "Every handle returned by load_*/…_to_… is fresh (never returned before), refers to the value it was created from until it is deleted or consumed, is unaffected by operations on other handles, and operations on unknown or deleted handles report failure without changing anything.", "quantifier": "every sequence of wasm API calls that creates fewer than usize::MAX handles", "why_tests_cant": "All histories.", "anchors": ["dandy-wasm/src/lib.rs:1-223"]}
{"id": "C43", "title": "CLI equivalence verdicts", "statement": "dandy equivalence reports Equivalent for a test file iff it parses, validates and denotes the same language over the same alphabet as the input (for each combination of types), and with --minimized reports Equivalent iff additionally the tested DFA has the minimum number of states.", "quantifier": "every input automaton, every test file, every option combination", "why_tests_cant": "All files and languages.", "anchors": ["dandy-cli/src/equivalence.rs:1-180", "dandy-cli/src/automata.rs:205-274 test_equivalence", "dandy-cli/src/automata.rs:279-307 load_test", "dandy-cli/src/automata.rs:198-203 prepare_to_compare_with"]}
{"id": "C44", "title": "CLI binary operations and enumeration", "statement": "The union/intersection/difference/symmetric-difference commands print a table denoting the corresponding Boolean combination of the two inputs' languages whatever their types, and the enumeration lists the first n words of the language in shortlex order.", "quantifier": "every pair of inputs, options and n", "why_tests_cant": "All inputs.", "anchors": ["dandy-cli/src/binary_op.rs:1-123", "dandy-cli/src/enumerate.rs:1-63", "dandy-cli/src/automata.rs:1-316"]}
{"id": "C45", "title": "Arrow layout never overlaps", "statement": "When drawing, every transition arrow is placed exactly once on a level below the returned number of levels, and arrows on the same level never overlap.", "quantifier": "every multiset of arrows, every hash order", "why_tests_cant": "All graphs.", "anchors": ["dandy-draw/src/lib.rs:487-519 place_arrows", "dandy-draw/src/lib.rs:521-538 group_arrows"]}
{"id": "C46", "title": "ASCII art never panics", "statement": "dfa_ascii_art and nfa_ascii_art return a drawing for every automaton.", "quantifier": "every valid automaton", "why_tests_cant": "Panics depend on label lengths and byte offsets.", "anchors": ["dandy-draw/src/lib.rs:328-448 ascii_art"]}
{"id": "C47", "title": "step_multiple with no elements after a foreign element", "statement": "After an element outside the alphabet, every step call and every step_multiple call with at least one element returns None; the claim that every later call reports None is false for the call step_multiple(&[]), which returns the last known state although current_state() is None.", "quantifier": "every valid DFA, every history of calls", "why_tests_cant": "Depends on the history of the evaluator, and on the empty call.", "anchors": ["dandy/src/dfa/eval.rs:58-66 DfaEvaluator::step_multiple"]}
{"id": "C48", "title": "Pipelines of operations compute set operations", "statement": "A client program that loads automata (tables or regular expressions) and applies any nesting of the library's conversions, simplifications and set operations succeeds exactly when every input is a legal text of a well-formed automaton and the operands of every binary operation have the same symbols; its result then has the symbols of its (left) leaves and exactly the language given by applying the set operations to the languages of the leaves.", "quantifier": "every finite nesting of operations, every input text, every hash order", "why_tests_cant": "All programs and all words.", "anchors": ["dandy/src/dfa/mod.rs:1-952", "dandy/src/nfa/mod.rs:1-1300", "dandy/src/regex/mod.rs:1-310", "dandy/src/parser/mod.rs:1-123"]}
{"id": "C49", "title": "Printed tables are aligned", "statement": "Printing a table never fails; the text has one line for the header and one for each state, in order; in every line every cell but the last is padded to the length (in characters) of the longest cell of its column and every cell is followed by one blank, so that columns start at the same offset in all lines.", "quantifier": "every valid DFA and NFA, whatever the names and symbols", "why_tests_cant": "All names and widths.", "anchors": ["dandy/src/table/mod.rs:1-51", "dandy/src/dfa/mod.rs:857-859 to_table", "dandy/src/dfa/mod.rs:863-865 ascii_table", "dandy/src/nfa/mod.rs:1187-1189 to_table", "dandy/src/nfa/mod.rs:1193-1195 ascii_table"]}
{"id": "C50", "title": "CLI enumeration commands", "statement": "dandy enumerate-regex and dandy enumerate print the first n words of the language of the expression or of the automaton in the file (all words if there are fewer than n), each exactly once, in shortlex order with respect to the order of the alphabet, the empty word as '(empty word)'; they fail exactly if the input cannot be read, does not parse or does not validate.", "quantifier": "every expression, every file of every type, every n", "why_tests_cant": "All languages and all n.", "anchors": ["dandy-cli/src/enumerate.rs:1-63", "dandy-cli/src/automata.rs:69-72 load_file", "dandy-cli/src/automata.rs:154-167 into_nfa"]}
{"id": "C51", "title": "CLI test-file reports", "statement": "dandy test-file reports [ OK ] for exactly those lines of a file that the automaton or expression accepts, with the right count of passed lines, or with --test-type files reports a file as [FAIL] exactly if some line is rejected and then names the first such line; lines end at LF or CRLF.", "quantifier": "every automaton of every type, every list of files, every content", "why_tests_cant": "All texts.", "anchors": ["dandy-cli/src/test_files.rs:1-62"]}
{"id": "C52", "title": "CLI shown path components", "statement": "dandy equivalence --path-length n prefixes every verdict with the last n components of the path (all of them if it has fewer), with the whole path if no length is given, and with nothing for 0.", "quantifier": "every Unix path made of ordinary components, every n", "why_tests_cant": "All paths.", "anchors": ["dandy-cli/src/main.rs:347-360 last_n_components", "dandy-cli/src/equivalence.rs:36-96 equivalence"]}
{"id": "C53", "title": "CLI output and --out file", "statement": "Every run of the tool ends without panic; stdout receives exactly the results and (unless --less-logs) the logs, in order, one per line; the file given with --out receives the same result lines; stderr receives one line for the error of the command, if any, and the notice about an output file that cannot be created.", "quantifier": "every command with every argument, every file system content", "why_tests_cant": "All commands and inputs.", "anchors": ["dandy-cli/src/main.rs:283-331 main", "dandy-cli/src/main.rs:298-303 output sink", "dandy-cli/src/main.rs:334-345 Error"]}
{"id": "C54", "title": "ASCII art shows the automaton", "statement": "The ASCII drawing of an automaton shows its initial state (by the arrow in the last line) and the labels of all of its transitions.", "quantifier": "every valid automaton whose labels fit", "why_tests_cant": "All automata; needs pairs of automata that a drawing confuses.", "anchors": ["dandy-draw/src/lib.rs:316-320 dfa_ascii_art", "dandy-draw/src/lib.rs:322-326 nfa_ascii_art", "dandy-draw/src/lib.rs:328-448 ascii_art"]}
{"id": "C55", "title": "Graphical drawings show the automaton", "statement": "draw_dfa and draw_nfa never panic; the drawer is told to start first and to finish last; in between every state is painted once, in order, with its name, a second circle exactly if it is accepting and an arrow from below exactly if it is initial; every connected ordered pair of states is painted as one arrow carrying all its labels, whose tip is at the target state, on the level given by the layout, where arrows of one level do not overlap; all circles, texts and lines have the colours and the transformation given by the options.", "quantifier": "every valid automaton, all options, every number type and drawer, every hash order", "why_tests_cant": "All automata and options.", "anchors": ["dandy-draw/src/lib.rs:156-314 draw", "dandy-draw/src/lib.rs:140-144 draw_dfa_with_opts", "dandy-draw/src/lib.rs:150-154 draw_nfa_with_opts", "dandy-draw/src/lib.rs:26-30 OffsetScaleDrawer", "dandy-draw/src/pos2.rs:1-109"]}
{"id": "C56", "title": "Canvas drawings", "statement": "Drawing an automaton on a 2d canvas context (all numbers finite, widths positive, radii not negative) paints exactly the circles, lines and centred texts of the drawing, in order, each with its colour and width, after whatever was painted before, and nothing else; it throws only for a negative radius. Calls with any other numbers: shapes with a number that is not finite are not painted, and widths that are not positive and finite are ignored. On the page, drawing by handle gives true and changes only the named canvas if the handle is alive and the element is a canvas, and otherwise gives false and changes nothing.", "quantifier": "every valid automaton, all options, every earlier state of the canvas, every document and session", "why_tests_cant": "All automata, options and canvas states.", "anchors": ["dandy-draw/src/canvas.rs:1-73", "dandy-wasm/src/lib.rs:64-89 draw_dfa", "dandy-wasm/src/lib.rs:92-117 draw_nfa"]}
{"id": "C57", "title": "egui drawings and the window", "statement": "The egui drawer hands the painter exactly the shapes of the drawing with their colours. The window of dandy-egui starts without panic and shows in every frame the drawing of the DFA whose table was in the text field when the button was clicked last, or nothing if that text is not a valid table; no input makes it panic.", "quantifier": "every valid automaton; every sequence of edits and clicks; every hash order", "why_tests_cant": "All automata and all sequences of inputs.", "anchors": ["dandy-draw/src/egui.rs:1-58", "dandy-egui/src/main.rs:1-64"]}
{"id": "C58", "title": "The web page shows the truth", "statement": "In every session with the page (edits of the text areas and clicks on the six buttons, up to half as many events as there are handles) nothing panics and every click shows the truth about the texts on the page: the comparison buttons show Equivalent/Not equivalent exactly if both texts are legal tables and have the same alphabet and language/have not, and otherwise ask to fix the errors, with one line for each text that is not legal, carrying a true error message; the conversion outputs show the table of an automaton with the language (and alphabet; for minimization: the fewest states) of the input, which re-parses to that automaton; errors are shown on the button or in the output; the visualization adds the drawing of the NFA to the canvas; nothing else on the page changes.", "quantifier": "every sequence of edits and clicks, every text, every hash order, with and without debug assertions and overflow checks", "why_tests_cant": "All sessions with all texts.", "anchors": ["website/index.html:1-326", "dandy-wasm/src/lib.rs:1-223"]}
{"id": "C59", "title": "Outputs of the web page belong to their inputs", "statement": "What an output of the page (converted table, minimized table, visualization) shows always is the result for the input beside it as it was when its button was clicked last.", "quantifier": "every sequence of edits and clicks", "why_tests_cant": "All sessions; needs errors after successes.", "anchors": ["website/index.html:300-310 minimizeDfa", "website/index.html:312-321 regexToNfa", "website/index.html:288-298 visualizeNfa", "website/index.html:274-286 nfaToDfa"]}
{"id": "C60", "title": "Memory of the web page", "statement": "The automata that the page keeps in the wasm module after a session are exactly: one for every comparison with exactly one legal text, one for every minimization, visualization or regex conversion whose input is legal; all others are freed.", "quantifier": "every sequence of edits and clicks", "why_tests_cant": "All sessions; the memory cannot be observed from the page.", "anchors": ["website/index.html:1-326", "dandy-wasm/src/lib.rs:178-180 delete_dfa", "dandy-wasm/src/lib.rs:200-202 delete_nfa"]}
{"id": "C61", "title": "Graphemes", "statement": "graphemes_only holds exactly when every symbol of the alphabet is one grapheme. accepts_graphemes accepts exactly the texts whose split into graphemes is an accepted word, so that symbols of several graphemes are never recognised. If the alphabet has only symbols of one grapheme, splitting a text is unambiguous: a text is accepted by accepts_graphemes exactly when every (equivalently, some) way of writing it as a word over the alphabet is accepted by accepts.", "quantifier": "every valid DFA and NFA, every text, every word, every segmentation into graphemes", "why_tests_cant": "All automata, all texts and symbols made of combining characters.", "anchors": ["dandy/src/dfa/mod.rs:814-819 Dfa::accepts_graphemes", "dandy/src/dfa/mod.rs:845-849 Dfa::graphemes_only", "dandy/src/nfa/mod.rs:1137-1142 Nfa::accepts_graphemes", "dandy/src/nfa/mod.rs:1147-1151 Nfa::graphemes_only"]}
{"id": "C62", "title": "Sizes", "statement": "The constructions have known sizes: to_nfa and invert keep the number of states; the union of two NFAs has one state more than both together; a product (and every set operation of DFAs) has at most as many states as there are pairs of states, an NFA product at most the pairs where one run may have ended; the subset construction has at least one and at most 2^n states; removing epsilon moves adds at most one state; minimizing and removing states never add any; a regular expression with s nodes becomes an NFA with at most 2s + 1 states, exactly one per node plus one per element of a sequence plus two. The bounds are attained: for all n, m >= 3 there are DFAs with n and m states over two symbols for which every product whose combinator depends on both sides, so union, intersection, difference and symmetric difference, has n * m states, also after minimizing; for all n, m there are NFAs whose product has (n + 1) * (m + 1) - 1 states; for every m >= 2 there is an NFA with m states over three symbols whose subset construction has 2^m states, and no DFA for its language has fewer.", "quantifier": "every valid DFA and NFA, every regular expression, every hash order", "why_tests_cant": "All automata; the bounds are about growth.", "anchors": ["dandy/src/dfa/mod.rs:1-952", "dandy/src/nfa/mod.rs:1-1300", "dandy/src/regex/mod.rs:104-155 Regex::to_nfa"]}
{"id": "C63", "title": "What may change from run to run", "statement": "Two runs of the same operation on the same automaton give the same result, although hash tables yield their entries in a different order in every run and the builds may differ: converting a regular expression to an NFA and on to a DFA, the subset construction and removal of unreachable states give identical automata; products and set operations give automata that are identical except for names, and identical when the state names of one operand contain no comma (for NFAs also: no state is called none); epsilon removal and optimization give automata with the same states, names, flags and target sets; minimization gives isomorphic automata. Nothing more can be promised: the representatives kept by minimization, the order of targets after epsilon removal, the fallback names of products and the placement of arrows in ASCII art do change from run to run.", "quantifier": "all valid automata, regular expressions and combinators; all pairs of hash iteration orders and builds", "why_tests_cant": "Rust seeds its hash tables randomly per process: a test compares runs with the orders it happens to draw.", "anchors": ["dandy/src/regex/mod.rs:104-155", "dandy/src/nfa/mod.rs:475-676", "dandy/src/nfa/mod.rs:681-951", "dandy/src/nfa/mod.rs:1057-1122", "dandy/src/dfa/mod.rs:452-552", "dandy/src/dfa/mod.rs:572-690", "dandy-draw/src/lib.rs:521-538"]}
{"id": "C64", "title": "Size of the automaton of an expression text", "statement": "The NFA of a parsed expression has fewer than 6 * g * 2^p states, where g is the number of tokens and p the number of plus signs of the text; in particular it is linear in the length of the text when the text has no plus sign. Since every plus sign doubles what stands before it, n nested plus signs over 3n + 1 graphemes give exactly 5 * 2^n - 2 states: the size is not bounded by any polynomial in the length of the text.", "quantifier": "every text and every segmentation that divides texts (counting tokens: a reserved character, an escaped grapheme or a grapheme); every n; every polynomial", "why_tests_cant": "The growth of all texts; nested repetitions of any depth.", "anchors": ["dandy/src/parser/regex.rs:22-80", "dandy/src/regex/mod.rs:104-205"]}
{"id": "C65", "title": "Repeated operations and round trips", "statement": "An operation that has nothing to do returns its argument unchanged: removing unreachable states changes an automaton exactly when it has some, merging exactly when two states are indistinguishable, minimizing exactly when a smaller DFA for the same language exists; doing any of them, or epsilon removal, twice is the same as doing it once. Conversions to DFAs and products have reachable states only. Converting a DFA to an NFA and back gives its reachable part up to numbering and names. (Optimizing an NFA may leave states that are unreachable; doing it again removes these, doing it a third time changes nothing.)", "quantifier": "every valid DFA and NFA, all hash orders and builds of each run", "why_tests_cant": "All automata; literal equality of whole automata under any hash order.", "anchors": ["dandy/src/dfa/mod.rs:572-690", "dandy/src/nfa/mod.rs:681-951", "dandy/src/nfa/mod.rs:1057-1122", "dandy/src/dfa/mod.rs:772-784 Dfa::to_nfa"]}
{"id": "C66", "title": "The repository's own tests pass for all inputs", "statement": "Every test of dandy/src/tests.rs, read as a program that panics when an assertion fails, passes for every input its generators can produce: parsing the printed table of an automaton gives back an equal automaton; minimizing, converting back and forth, removing epsilon moves and removing unreachable states keep equivalence; set operations of DFAs and NFAs agree with combining the two answers, on every test text; union and intersection of a DFA with itself are equivalent to it; the tautologies about complements hold; the words yielded by an NFA are exactly the accepted ones among all words over its alphabet in the order of the test's counter, as far as the test looks; a generated regular expression parses, is equivalent to its DFA after all conversions and matches exactly the texts an independent matcher accepts; the automaton of the subset construction example equals the expected one.", "quantifier": "every valid automaton with printable names (resp. pair over one alphabet), every expression of the generator's grammar, every test text, every number of words, every hash order and build", "why_tests_cant": "The tests themselves draw a few hundred random small automata per run; this claim is about all of them.", "anchors": ["dandy/src/tests.rs:1-526"]}
{"id": "C67", "title": "Operations obey exactly the laws of propositional logic", "statement": "Read invert as negation, union, intersection, difference and symmetric difference as the connectives, and conversions, removals, merging, minimize and optimize as the identity. Then every pipeline of calls on DFAs and NFAs over one alphabet succeeds, and its result accepts a word exactly when its formula is true of the answers of the inputs; pipelines whose formulas are equivalent give automata that equivalent_to calls equivalent and that minimize to the same automaton up to naming; and formulas that are not equivalent are told apart by some automata over any alphabet. Difference is exactly intersection with the inverse, and De Morgan's laws hold state by state. Two DFAs are equivalent exactly when their symmetric difference has no reachable accepting state. The verdicts of equivalent_to form an equivalence relation, the same for NFAs and their DFAs. Minimize and invert commute.", "quantifier": "every pipeline term with any number of variables, all valid automata over one alphabet, all words, hash orders and builds", "why_tests_cant": "All formulas of any size over all automata; tests compare single operations on random automata.", "anchors": ["dandy/src/dfa/mod.rs:317-552", "dandy/src/dfa/mod.rs:572-690", "dandy/src/dfa/mod.rs:899-931", "dandy/src/nfa/mod.rs:345-676", "dandy/src/nfa/mod.rs:1057-1122"]}
{"id": "C68", "title": "An automaton and its complement enumerate all words, each once", "statement": "If an alphabet has a symbols, every accepted word of at most n symbols is among the first 1 + a + ... + a^n results of the word iterator, and no result is repeated. Hence that many calls on the iterators of a DFA and of its inverse list every word of at most n symbols over the alphabet, each by exactly one of the two, and nothing else than words over the alphabet.", "quantifier": "every valid DFA, every length n and every number of calls from the bound on; every epsilon-free NFA", "why_tests_cant": "All lengths and all automata.", "anchors": ["dandy/src/nfa/words.rs:1-407", "dandy/src/nfa/mod.rs:1012-1024 doc of words", "dandy/src/dfa/mod.rs:317-321"]}
{"id": "C69", "title": "The test generators draw exactly the valid automata with printable names", "statement": "The generators of the property tests draw an automaton exactly when it is valid, has fewer states and symbols than the bounds (and at least one of each), and all its state names and symbols are legal tokens of the text formats; for NFAs moreover no target is listed twice. With a fixed alphabet of different characters, the symbols are those characters in any order. Hence, for any bounds, no drawn input makes a property test fail.", "quantifier": "every automaton, all size bounds, every alphabet of different characters, all hash orders and builds, all lists of test strings over the alphabet", "why_tests_cant": "A test runs a few hundred drawn values; nothing checks that the generators miss no automaton or draw no illegal one.", "anchors": ["dandy/src/tests.rs:291-514", "dandy/src/tests.rs:64-260"]}
{"id": "C70", "title": "The examples of the documentation pass, and its tables and expressions accept exactly the words it describes", "statement": "Every example program of the crate documentation (with its assertions) runs without panic or failed assertion, for every hash order and in debug and release builds. The DFA of the front page accepts exactly the words over a, b, c that consist of b's only, contain two a's or have a c before the first a; the other tables and the expressions (ab)+, (ab)*, (ab)+c, c(a|b)*c accept exactly the words their descriptions name, and so do the results of the set operations on them. The table of the ambiguity discussion answers differently for the two readings of aaa. The sentence that 0*1(0|ε) accepts every word with one 1 is false: 100 is rejected. The expression written in that sentence, 0*1(0+ε), means zeros, a one and at least one zero; two of the three words listed as matching, 1 and 0001, do not match. The word iterators depend on the language and the order of the alphabet only.", "quantifier": "every hash order, debug and release builds, every segmentation that splits the letters of the examples plainly; all words over any symbols", "why_tests_cant": "The doc tests check a few words each and one hash order; the descriptions speak about all words.", "anchors": ["dandy/src/lib.rs:1-60", "dandy/README.md:11-40", "dandy/src/dfa/mod.rs:1-232 doc examples", "dandy/src/nfa/mod.rs:1-259 doc examples", "dandy/src/regex/mod.rs:1-60", "dandy/src/parser/mod.rs:1-58"]}
{"id": "C71", "title": "Syntax errors are reported at the place and with the kind the formats determine", "statement": "Parsing a text yields the table it lays out, or else exactly one error: a kind and the rest of the text where reading had to stop. For tables it is the first place, after skipping lines with only blanks and comments, where the header, the line end after it, the name of a state, the blank after it or its first cell is missing, or where something stands after the last complete line that is no further line; for NFAs a missing brace is reported inside the set. For an expression it is the end of the longest beginning that is an expression (kind Eof), the beginning of the trimmed text if no beginning is one (kind Verify), or the empty text (kind Fail). The command line and the web page show the kind and this rest of the text in their messages.", "quantifier": "every text; for expressions every segmentation that divides texts; every environment of the command line, all hash orders", "why_tests_cant": "Tests only check that wrong texts are rejected; the errors of backtracking combinators depend on which alternative was tried last.", "anchors": ["dandy/src/parser/mod.rs:102-123", "dandy/src/parser/fa.rs:1-165", "dandy/src/parser/regex.rs:1-106", "dandy-cli/src/automata.rs:13-27", "dandy-cli/src/equivalence.rs:164-180", "dandy-cli/src/enumerate.rs:6-15", "dandy-wasm/src/lib.rs:162-210"]}
{"id": "C72", "title": "Products with a combinator that has a memory", "statement": "The combinator given to product_construction (of DFAs and of NFAs) may be a closure with memory (FnMut). It is called exactly once for each pair of states that the two automata reach together (for NFAs also pairs in which one run has ended), with these two states, in an order that depends neither on the combinator nor on the hash order and that starts with the pair of initial states. The i-th answer is the accepting flag of the i-th state of the result, and nothing else of the result depends on the answers; the result accepts exactly the words that lead to a pair answered with true. The construction panics exactly when one of these calls panics and fails to return exactly when one of them does. Over different alphabets the combinator is never called. For a combinator without memory this is the construction of the other claims.", "quantifier": "all valid automata, all memory types, all closures including panicking and non-returning ones, all hash orders", "why_tests_cant": "The closures are arbitrary programs with arbitrary state; a test can only try a few and sees one hash order.", "anchors": ["dandy/src/dfa/mod.rs:452-552", "dandy/src/nfa/mod.rs:475-676"]}
{"id": "C73", "title": "Which set operations the product of NFAs can compute", "statement": "Let product_construction of two NFAs be called with a combinator that only combines the accepting flags of the two states (no state counts as not accepting). If it rejects when both reject, the result accepts every word for which the combination of the two answers is true. It accepts exactly these words, for all NFAs, exactly for the combinators never, both, first, second and one of both: differences and symmetric differences cannot be computed this way, as documented. With the combinator 'first and not second' exactly those words are accepted that the first NFA accepts and on which the second can be in a state that does not accept or can run into a state without a transition for the next symbol; the documentation only names the former. On NFAs converted from DFAs every combinator is exact for words over the alphabet.", "quantifier": "all valid NFAs, all words, all Boolean functions of the two flags, all hash orders", "why_tests_cant": "A statement about all NFAs and words and about which of all functions work; the documentation's description misses words that small examples do not show.", "anchors": ["dandy/src/nfa/mod.rs:160-176", "dandy/src/nfa/mod.rs:457-676"]}
{"id": "C74", "title": "Growth, order and minimality of NFAs, as remarked in the documentation", "statement": "For every m there is an NFA with m + 2 states over two symbols for whose language every DFA has at least 2^(m+1) states, so to_dfa grows exponentially whatever is done with the result. The word iterators yield words in dictionary (lexicographic) order exactly when no longer accepted word precedes a shorter one in a dictionary; this fails for the language a*b, whose words no list whatsoever can enumerate in dictionary order (the documentation says 'lexicographic order'; the order is by length first). Two different NFAs can both have the least number of states for one language. Swapping accepting and other states of an NFA does not complement its language in general (in both directions), but does for NFAs made from DFAs, on words over the alphabet.", "quantifier": "all m, all DFAs for the language, all hash orders; all valid epsilon-free NFAs and all numbers of calls; all sequences of words", "why_tests_cant": "Lower bounds speak about all DFAs; impossibility about all sequences; the order about the whole infinite enumeration.", "anchors": ["dandy/src/nfa/mod.rs:131-157", "dandy/src/nfa/mod.rs:213-218", "dandy/src/nfa/mod.rs:1012-1050", "dandy/src/nfa/words.rs:10-11"]}
{"id": "C75", "title": "Evaluators after an element outside the alphabet", "statement": "After the first element outside the alphabet a DFA evaluator stays as it is whatever is called: current_state_idx is the state reached before that element, current_state is None, step and step_multiple with elements return None, step_multiple(&[]) returns the last state, step_all gives copies. An NFA evaluator never accepts again but goes on moving: its current states are exactly those reached by the elements it took, where a step outside the alphabet is skipped and step_multiple drops the rest of its list from the first such element on; so feeding a list at once or one by one gives equal DFA evaluators always, and equal states of NFA evaluators if no element is foreign but not in general.", "quantifier": "every valid DFA and NFA, every history of step and step_multiple calls, every hash order", "why_tests_cant": "Histories are unbounded and mix calls and foreign elements in every order.", "anchors": ["dandy/src/dfa/eval.rs:6-11 DfaEvaluator", "dandy/src/nfa/eval.rs:7-12 NfaEvaluator"]}
{"id": "C76", "title": "CLI logs", "statement": "Unless --less-logs is given, stdout holds the log lines of the command before and after all of its results, and these are exactly: for equivalence \"Input loaded:\", the table of the reference converted to the tested type (minimized with --minimized, unchanged if it had the type already), the number of files and the time, and at the end the number of files that passed; for set operations one line for each input that was converted or minimized and a title for the table, which is missing when the alphabets differ; for enumerations a title and, if there are fewer words than asked for, their number; for test-file the table of the loaded automaton as an NFA. Any automaton is shown as its table, an expression in its printed form. A command that fails before logs nothing. --less-logs changes nothing but stdout.", "quantifier": "every command with every argument, every file system content, all hash orders", "why_tests_cant": "The lines depend on the types and alphabets of the inputs and on where a command fails; the tool has no tests.", "anchors": ["dandy-cli/src/equivalence.rs:36-96", "dandy-cli/src/binary_op.rs:6-113", "dandy-cli/src/enumerate.rs:28-63", "dandy-cli/src/test_files.rs:5-62", "dandy-cli/src/main.rs:283-331"]}
{"id": "C77", "title": "Where the shapes of graphical drawings are", "statement": "Calculating exactly: for all options with positive sizes, the circles of different states have no point in common, and the horizontal lines of two arrows meet exactly if both are on one level and one of them ends at a state whose loop is the other one (which happens, depending on the hash order). With the default options and any offset all arrows and their labels' centres are above everything drawn for the states. With the default options the drawing of an automaton with n states and l levels of arrows fits into W x H exactly if 80n + 50 <= W and 25l + 165 <= H; on the canvas of the web page (700 x 500) exactly automata with at most 8 states and 13 levels fit.", "quantifier": "every valid DFA and NFA, all proper options, every hash order, all W and H, every number type with exact operations", "why_tests_cant": "Coordinates are sums and products over all states and levels; the drawings are never inspected by tests.", "anchors": ["dandy-draw/src/lib.rs:33-134", "dandy-draw/src/lib.rs:155-540", "website/index.html:185", "dandy-wasm/src/lib.rs:64-89 draw_dfa", "dandy-wasm/src/lib.rs:92-117 draw_nfa"]}
{"id": "C78", "title": "A graphical drawing determines the automaton", "statement": "Calculating exactly: if the drawings of two DFAs (or of two NFAs without ε as a symbol), with the default options moved by any offset, consist of the same shapes with the same colours, then the automata have the same states with the same names and flags in the same order, the same initial state, the same transitions (and ε-moves), and the same language; DFAs with the same list of symbols are equal. This holds if symbols have no spaces, as is the case for all automata read from tables. (ASCII art does not have this property, C54.)", "quantifier": "every pair of valid DFAs or NFAs whose symbols have no spaces, all offsets, every pair of hash orders", "why_tests_cant": "A statement about all pairs of automata; a test compares a handful of pictures.", "anchors": ["dandy-draw/src/lib.rs:155-540"]}
{"id": "C79", "title": "Conversions and comparisons of automata of any kind", "statement": "The conversions of the command line tool's Automata type keep the alphabet (with its order) and the language; into_dfa, into_nfa, into_minimized_dfa_if_not_dfa, convert_to and prepare_to_compare_with return false as their second component exactly if the value had the wanted kind already, and then return it unchanged; into_minimized_dfa always gives a DFA with the fewest states and returns false exactly for DFAs that had the fewest states already, which it returns unchanged; convert_to Regex succeeds for expressions only and otherwise warns. test_equivalence answers, for all nine combinations of kinds, NotEquivalent exactly if the alphabets or languages differ, and NotMinimized exactly if minimized is set, both are DFAs, they are equivalent and have different numbers of states; it prints exactly the documented warnings.", "quantifier": "all valid automata and all expressions of each kind, both values of minimized, all hash orders", "why_tests_cant": "The methods are not tested at all; some of them and some branches are not used by any command.", "anchors": ["dandy-cli/src/automata.rs:36-47", "dandy-cli/src/automata.rs:58-66", "dandy-cli/src/automata.rs:95-274"]}
{"id": "C80", "title": "Options of drawings", "statement": "DrawOptions::new takes the values of the options in the order of their declaration, every with_... method replaces the value of its option and keeps all others, and Default gives the declared values. The arrangement of the arrows does not depend on the options. x_offset/y_offset move all shapes of a drawing and x_scale/y_scale then stretch it (radii by x_scale, lines do not become thicker); text_color, circle_color and line_color are the colours of texts, circles and lines and change nothing else; middle_arrow and end_arrow decide whether each arrow has two more lines at its middle and at its end, and change nothing else.", "quantifier": "every valid automaton, all values of all options, every hash order; positions with exact arithmetic", "why_tests_cant": "There are 24 options with arbitrary numbers and colours and unboundedly many automata; a test draws a few automata with a few options.", "anchors": ["dandy-draw/src/lib.rs:26-134", "dandy-draw/src/lib.rs:136-314"]}
{"id": "C81", "title": "The page as loaded", "statement": "All examples that the page starts with are legal and are the documented automata: the two DFAs have the same language, the two NFAs have not, the expression stands for one or more ab followed by c, the module stores nothing and the canvas is empty. In every session, whatever else is edited or clicked: as long as the texts beside a button are not edited, the DFA comparison shows Equivalent and the NFA comparison Not equivalent, both without complaints; minimizing shows the table of a DFA of three states with the language of the first DFA; the conversions show tables of automata of the expected languages; and the visualization adds the drawing of the NFA to the canvas.", "quantifier": "every session (up to half as many events as there are handles), every hash order, with and without debug assertions", "why_tests_cant": "All sessions and hash orders.", "anchors": ["website/index.html:1-326"]}
{"id": "C82", "title": "Recursion of the regex parser", "statement": "Reading a regular expression needs calls of the recursive parser inside each other exactly one deeper than its groups are nested, however long the expression is; for texts that are not expressions, one more than the number of opening parentheses is enough, and allowing more never changes a result. The tree of an expression with groups nested n deep has a height of at most 4n + 5, and for every n there is an expression for which it has exactly this height.", "quantifier": "every text, every way to divide texts into graphemes, every depth of recursion", "why_tests_cant": "Texts of unbounded length and nesting; a test shows that some particular text does not exhaust the stack.", "anchors": ["dandy/src/parser/regex.rs:13-69", "dandy/src/parser/mod.rs:119-123"]}
{"id": "C83", "title": "Reading ASCII art", "statement": "Two automata whose names contain no spaces or line feeds, whose symbols contain no spaces, line feeds or vertical bars, and whose labels fit have the same ASCII art only if they have the same states in the same order, the same accepting states, the same labelled transitions between every two different states and loops at the same states. Two such DFAs over the same alphabet have the same art exactly if they agree in all but the initial state; then every state accepts the same words. Automata that differ only in the initial state always have the same art. With names that contain spaces this fails.", "quantifier": "every two automata of any sizes, every two hash orders", "why_tests_cant": "All pairs of automata, independent of the order of hash maps; a test compares a few drawings.", "anchors": ["dandy-draw/src/lib.rs:316-538"]}
{"id": "C84", "title": "The file of --out and the files a command reads", "statement": "A run changes no file but the one named by --out, and that file then contains exactly the results, without line feeds between them. If no path the command reads names that file, the run prints what it would print without it. The file written by a set operation without --enumerate and without a third automaton can be read again as a DFA, whose words are those of the operation and which is minimal with --minimized (for alphabets that can be written in tables); with --enumerate this fails. Words listed with --less-logs and redirected into a file all pass test-file, if they can be written on lines of their own; words listed with --out do not. If --out names an input, the input is lost: the run prints nothing, fails with an error, and leaves the file empty. If --out names the automaton, read as a DFA, to compare the result of a set operation (without --enumerate) with, the result is compared with itself and always found equivalent.", "quantifier": "every command, all files, every naming of files by paths, every hash order", "why_tests_cant": "Depends on the order in which a run empties, reads and writes files, for all contents; the tests of the tool do not write files.", "anchors": ["dandy-cli/src/main.rs:283-331", "dandy-cli/src/binary_op.rs:26-113", "dandy-cli/src/test_files.rs:24-62", "dandy-cli/src/equivalence.rs:36-96", "dandy-cli/src/enumerate.rs:6-63"]}
{"id": "C85", "title": "What a command line asks for", "statement": "A command line is accepted exactly if it consists of options of the program, the name of one of the eight commands, and options and positional arguments of that command, each option at most once, with values of the right kind and the right number of positional arguments; then exactly the run is made that the options describe, with the defaults for options that are not given. Options may be written with their long name (value after an equals sign or in the next argument) or, where they have one, their letter (value attached, after an equals sign, or in the next argument; letters without value may share an argument), before or after positional arguments; after two hyphens everything is positional. Order and way of writing do not matter, a command line asks for at most one run, and every run with numbers below 2^64 and without empty paths (and no other) can be asked for. A command line with an unknown option, or that asks for no run for another reason, runs nothing and touches no file.", "quantifier": "every list of arguments, every run, all files, every hash order", "why_tests_cant": "All spellings and orders of options, with arbitrary paths and numbers; there are no tests of the command line.", "anchors": ["dandy-cli/src/main.rs:18-275", "dandy-cli/src/main.rs:283-331", "dandy-cli/src/automata.rs:29-35"]}
{"id": "C86", "title": "The output of the tool from run to run and from build to build", "statement": "Enumerations, tests of files and comparisons under --less-logs print, report and write exactly the same in every run and in every build; with logs, a comparison differs at most in the logged time taken and, under --minimized, in the logged table of the minimized reference automaton, and that only in the names and the order of states. A set operation gives the same error messages, enumerated words and comparison in every run; only the printed table of the result may differ, and that only in the names and the order of states: both tables describe DFAs with the same elements in the same order and the same words, one state for each of the other's, with the same transitions. The table is the same too for two DFAs, one of them without commas in the names of its states, without --minimized. The listed exceptions do occur: concrete runs whose tables differ are exhibited.", "quantifier": "for all command lines, files, pairs of iteration orders of hash sets and maps, times taken, and builds with or without debug assertions; for set operations as long as the file of --out is not one of those read", "why_tests_cant": "iteration order of HashSet and HashMap is seeded per process, so a differing run shows up only by chance and an agreeing one proves nothing", "anchors": ["dandy-cli/src/main.rs:283-331", "dandy-cli/src/binary_op.rs:6-123", "dandy-cli/src/equivalence.rs:36-180", "dandy-cli/src/test_files.rs:5-62", "dandy-cli/src/enumerate.rs:6-63"]}
{"id": "C87", "title": "The example files, documented commands and benchmarks of the repository", "statement": "Started in the directory of the tool, the first command that its source documents, equivalence tests/dfa1.dfa tests/example_tree/**/*.dfa, always fails, reporting that the state 'fail' of the first file is defined twice; so does test-file with that file. The second documented command (run with --less-logs) always prints the five verdicts Equivalent but not minimized, Not Equivalent, Failed to validate, Failed to parse and Equivalent, and further comparisons of the shipped files print fixed verdicts. user1/correct.dfa, user5/correct_minimized.dfa, user1/same.regex and nfa1.nfa accept exactly the words of a and b with an even number of a, and user2/incorrect.dfa does not; example.dfa and example2.dfa accept the language of the documented table, init_b.dfa the words that start with b and term_a.dfa those that end with a; the subset construction of example2.nfa is, up to the numbering of states, the DFA of eq_example2_nfa.dfa that its comment announces, and example3.nfa means the same. None of the benchmarks panics: powerset computes the four set operations of its two DFAs, equivalence_check finds them different, regex_compile and regex_check accept exactly the sixteen words listed in the expression. The unused function main1 runs to its end.", "quantifier": "for every run (iteration orders, debug assertions, time taken), every text nom may show for a syntax error, every error message for missing files; for the tests and expressions every segmentation that splits printable ASCII into characters; benchmarks on every text; languages over every word", "why_tests_cant": "the example files and benchmarks are not exercised by any test, and their languages range over infinitely many words", "anchors": ["dandy-cli/src/main.rs:18-20", "dandy-cli/src/main.rs:362-386", "dandy/benches/benchmark.rs:33-91", "dandy-cli/tests/dfa1.dfa:1-4", "dandy-cli/tests/example2.nfa:1-32"]}
{"id": "C88", "title": "Sequences of runs compute and compare expressions of set operations over files", "statement": "Runs of the command-line tool that pass files to each other with --out: if files are known to contain automata with certain elements (in a certain order) and languages, then a sequence of set operations on these files and on files written by earlier runs succeeds without any error message, every written file read as a DFA has the elements of the first operand in that order and exactly the language of the operation, whatever was known about other files still holds, and files that are not written are untouched. A comparison of two such files tells the truth and listing words lists exactly the first words. So, for every expression of union, intersection, difference and symmetric difference over files with the same elements, evaluating it bottom-up into temporary files leaves in the last file exactly the language of the expression, and comparing the results of two expressions decides whether they denote the same language. The languages that can be computed from given files in this way are exactly the Boolean combinations that leave out the words of no file; in particular the complement of a file cannot be computed from that file alone.", "quantifier": "for every expression of any depth over any files (DFAs, NFAs, expressions), every choice of --minimized, --less-logs and of how the arguments are written, every iteration order, build mode and duration of each run, every set of other files", "why_tests_cant": "tests run single functions once; here arbitrarily many runs of the whole program with different hash orders feed each other", "anchors": ["dandy-cli/src/main.rs:283-331", "dandy-cli/src/binary_op.rs:6-123", "dandy-cli/src/equivalence.rs:36-180", "dandy-cli/src/enumerate.rs:6-63"]}
{"id": "C89", "title": "Small drawings are exact in single precision", "statement": "With the default options, moved by whole numbers x and y as the programs do, every coordinate, radius and thickness of a drawing calculated with IEEE single precision numbers (f32) has exactly the value that exact rational arithmetic gives, provided that 80 times the number of states plus 50 plus x and 25 times the number of levels of arrows plus 165 plus y stay below 2^22; automata with at most 400 states never exceed that. Hence the statements about exact drawings hold for f32: two DFAs (or NFAs) with at most 400 states whose drawings show the same shapes have the same states and transitions and accept the same words, and a drawing lies inside of the 700 by 500 canvas of the page exactly if there are at most 8 states and 13 levels. For large automata this is false: there are different DFAs with the same drawing, because positions are rounded.", "quantifier": "for every valid DFA and NFA, every iteration order, every offset, every operation of the drawing code with rounding to nearest even", "why_tests_cant": "rounding errors depend on the sizes of the numbers; tests look at a few small drawings and never compare with exact results", "anchors": ["dandy-draw/src/lib.rs:156-314", "dandy-draw/src/lib.rs:107-134", "dandy-draw/src/pos2.rs:31-109", "dandy-wasm/src/lib.rs:92-117", "dandy-egui/src/main.rs:38-62"]}
{"id": "C90", "title": "The canvas and the page with IEEE numbers", "statement": "With IEEE single precision coordinates that are passed to the canvas as double precision numbers (as f64 does not change a number), what the canvas and page properties assume about numbers is true: for fewer than 2^32 states every coordinate is finite. Hence drawing a DFA or NFA with fewer than 2^32 states throws nothing and paints the circles, lines and centred texts of the drawing, in order, followed only by the last outline once more; if the drawing is small (C89; always up to 400 states), with exactly the coordinates, radii and widths of exact arithmetic. In every session with the page nothing fails, and every click on Visualize with the text of such an NFA paints exactly that onto the canvas; in particular for the NFA that the page starts with, whatever else is done.", "quantifier": "for every valid DFA and NFA, every iteration order, every canvas context, every session (up to half as many events as there are handles)", "why_tests_cant": "a number that is not finite, a negative radius or a rounding error for one size of automaton is not seen by looking at a few drawings", "anchors": ["dandy-draw/src/canvas.rs:1-73", "dandy-draw/src/lib.rs:156-314", "dandy-wasm/src/lib.rs:92-117", "website/index.html"]}
{"id": "C91", "title": "What is seen determines the automaton", "statement": "In the window of dandy-egui (IEEE single precision coordinates): whenever two frames show the same shapes, either both rendered texts are no DFAs, or they are DFAs and, if they have at most 400 states, they have the same states with the same names and flags, the same transitions and the same words, and are equal if their alphabets are listed in the same order. On the web page: whenever two clicks on Visualize add the same marks to the canvas (IEEE double precision coordinates), the NFAs in the text area at these times (at most 400 states) had the same states, transitions and words.", "quantifier": "for every sequence of edits and clicks in the window and on the page, every iteration order, every pair of frames or clicks", "why_tests_cant": "the drawings of two automata can only be compared in tests one pair at a time; that no two automata look alike is a statement about all pairs", "anchors": ["dandy-egui/src/main.rs:38-62", "dandy-draw/src/egui.rs:8-58", "dandy-draw/src/canvas.rs:1-73", "dandy-draw/src/lib.rs:156-314", "dandy-wasm/src/lib.rs:92-117", "website/index.html"]}
{"id": "C92", "title": "The page from run to run", "statement": "If in two sessions with the web page, in builds that may differ (hash tables in another order, debug assertions on or off), the same edits and clicks are made in the same order, then after each event the two pages show the same texts everywhere except in the output of the minimization, where they show the tables of two DFAs that differ only in the names and the order of their states; the canvases show pictures of the same automata in the same order, each in some layout. In a browser (IEEE double precision coordinates) a click on Visualize paints the same NFA (fewer than 2^32 states) in both sessions. Both exceptions occur on the page as loaded: one click on Minimize or Visualize can show different texts or another drawing.", "quantifier": "for every pair of sessions with the same user events, every iteration order at each click, debug assertions on or off at each click, every number of handles that suffices", "why_tests_cant": "a test runs on one build, and hash orders are drawn at random: whether an output depends on the order can be seen only by comparing all of them", "anchors": ["website/index.html:1-326", "dandy-wasm/src/lib.rs:1-223", "dandy/src/dfa/mod.rs:572-690", "dandy-draw/src/lib.rs:156-314"]}
{"id": "C93", "title": "Finitely many words decide", "statement": "Two DFAs with n and m states over the same symbols are equivalent (equivalent_to) exactly if accepts agrees on all words of at most n + m - 2 symbols; two NFAs exactly if accepts agrees on all words of at most 2^n + 2^m - 2 symbols. Two states of a DFA with n states are in one equivalence class exactly if no word of at most n - 2 symbols is accepted from only one of them. An automaton with n states accepts some word (has_reachable_accepting_state) exactly if it accepts one of fewer than n symbols. The language of an NFA with n states and without epsilon moves is finite exactly if all its words have fewer than n symbols, exactly if it accepts no word with between n and 2n - 1 symbols, and exactly if the word iterator gives None after 1 + a + ... + a^(n-1) calls, for a symbols. The bounds n + m - 2, n - 2 and n are attained for every n, with m = 1.", "quantifier": "every pair of valid DFAs, every pair of valid NFAs (with epsilon moves), every pair of states, every hash order; for finiteness every valid NFA without epsilon moves", "why_tests_cant": "it says which finite sets of tests are enough for all words; that the untested words agree too cannot itself be tested", "anchors": ["dandy/src/dfa/mod.rs:603-703", "dandy/src/dfa/mod.rs:788-931", "dandy/src/nfa/mod.rs:975-985", "dandy/src/nfa/mod.rs:1126-1300", "dandy/src/nfa/words.rs:1-407"]}
{"id": "C94", "title": "Calculating with points", "statement": "Converting a pair of f32 to a Pos2 and back gives the pair; converting the same numbers as f64 gives the same point; with_x and with_y change one coordinate. +, -, * and unary - work on both coordinates; + and * are commutative, p - q is p + (-q), -(-p) is p, p * f is p * pos2(f, f), p * 1.0 is p. Each coordinate of a sum, difference or product, and each coordinate made from an f64, is the single precision number nearest to the exact result, with an even mantissa if two are as near, and infinite of the right sign exactly from (2^24 - 1/2) * 2^104 on. p == q holds exactly if the coordinates have equal values, so p == p exactly if no coordinate is NaN. Pos2::x(a) + Pos2::y(b) == pos2(a, b) unless NaN is involved, but it need not be the same point: the sign of a zero can be lost (refuted).", "quantifier": "all points of IEEE 754 single precision numbers, with zeros of both signs, subnormal numbers, infinities and NaN; all doubles for conversions", "why_tests_cant": "there are 2^64 points and rounding errors only show for some of them; that no nearer number exists is a statement about all numbers", "anchors": ["dandy-draw/src/pos2.rs:3-5", "dandy-draw/src/pos2.rs:7-29", "dandy-draw/src/pos2.rs:31-84", "dandy-draw/src/pos2.rs:86-102"]}
{"id": "C95", "title": "Rectangles", "statement": "Calls of draw_rect between any other calls of a canvas or egui drawer do not change what the other calls paint, nor whether they panic. A rectangle on a canvas is painted after everything before it and before everything after it, filled with the colour of the last set_color, with the corner and size asked for, and exactly if all four numbers are finite and neither width nor height is zero; in egui always, from the corner to the corner plus the size, in green if no colour was set. Inside of a drawing with options the corner of a rectangle is moved and scaled but its size is not scaled, so its opposite corner is not where lines to that corner go (refuted); no drawing of an automaton uses rectangles.", "quantifier": "all sequences of calls of the methods of Drawer, with any numbers (any arithmetic of f32 and f64), any canvas context", "why_tests_cant": "draw_rect is never called by the crates and no test draws anything", "anchors": ["dandy-draw/src/lib.rs:16-24", "dandy-draw/src/lib.rs:54-57", "dandy-draw/src/canvas.rs:48-55", "dandy-draw/src/egui.rs:41-47"]}
{"id": "C96", "title": "The laws of expressions", "statement": "Parsing two texts, turning the expressions into automata and calling equivalent_to (on the NFAs or, after to_dfa, on the DFAs) answers true exactly if the equation between the two expressions can be derived from Salomaa's laws of regular expressions (alternation is associative, commutative, idempotent with unit ∅; sequence is associative and distributive with unit ε and zero ∅; a* = ε|aa*, (ε|a)* = a*, a+ = aa*; from x = ax|b follows x = a*b if a does not match the empty word; replacing equals by equals) and both have the same symbols. Texts that are no way to type an expression are refused. A verdict 'equivalent' stays when expressions are put for the symbols, and when parts are replaced by equivalent parts; from ax|x = x follows a*x|x = x, and the same on the other side.", "quantifier": "all texts and expressions, all segmentations into graphemes that divide texts, all hash orders", "why_tests_cant": "Quantifies over all derivations from the laws, in both directions (soundness and completeness); no set of expressions covers that.", "anchors": ["dandy/src/parser/regex.rs:1-106", "dandy/src/parser/mod.rs:46-57, 119-123 regex", "dandy/src/regex/mod.rs:104-155 Regex::to_nfa", "dandy/src/nfa/mod.rs:1057-1122 to_dfa, 1237-1272 equivalent_to", "dandy/src/dfa/mod.rs:899-931 equivalent_to"]}
{"id": "C97", "title": "Expressions are as strong as automata", "statement": "For every valid DFA and NFA whose alphabet elements are kept apart by the segmentation into graphemes there is a text that parses to an expression whose automaton equivalent_to calls equivalent to it. Conversely an automaton that is equivalent to a parsed expression has only graphemes in its alphabet. If graphemes are single characters, the automata with an equivalent typed expression are exactly those whose alphabet elements are single characters.", "quantifier": "all valid automata and texts, all segmentations that divide texts, all hash orders", "why_tests_cant": "A statement of existence for every automaton (Kleene's theorem).", "anchors": ["dandy/src/parser/mod.rs:119-123 regex", "dandy/src/parser/regex.rs:1-106", "dandy/src/regex/mod.rs:104-155 Regex::to_nfa", "dandy/src/nfa/mod.rs:1057-1122 to_dfa, 1237-1272 equivalent_to", "dandy/src/dfa/mod.rs:772-784 to_nfa, 899-931 equivalent_to"]}
{"id": "C98", "title": "Runs whose writing fails", "statement": "Every run of dandy-cli in which a write to stdout, to stderr or to the output file fails stops at the first failing write with exit status 101; what arrived before is exactly what the undisturbed run writes up to there, in its order (the notices about the file, then every line and, if it is a result, the same text into the file, then the error), and no other file changes. Status 0 means that everything arrived. A stream that takes only k characters gets exactly the first k characters of what the undisturbed run writes to it. An undisturbed run ends with status 0 even if it has reported an error.", "quantifier": "all commands, arguments, files, hash orders, and all ways in which writes can fail", "why_tests_cant": "Tests do not make writes fail, and there is a point of failure for every character of every run.", "anchors": ["dandy-cli/src/main.rs:283-331 main", "dandy-cli/src/test_files.rs:28-59", "dandy-cli/src/enumerate.rs:6-49", "dandy-cli/src/binary_op.rs:13-98", "dandy-cli/src/equivalence.rs:36-96"]}
{"id": "C99", "title": "Runs while others change the files", "statement": "Whatever other programs do to the files while dandy-cli runs: every run ends, reads the paths of its command line once each and in order, and prints and reports about each file what is true of the text found when it was read. If no path is named twice, the run is one that the tool could do undisturbed on files with the contents found. This state of the files need never have existed, and if a path is named twice the result may fit no state at all.", "quantifier": "all commands, arguments and hash orders, and all contents that any read may find", "why_tests_cant": "Races between the tool and other programs depend on timing, and there are unboundedly many ways in which files can change between reads.", "anchors": ["dandy-cli/src/equivalence.rs:36-96 equivalence, 153-161 test_equivalence", "dandy-cli/src/binary_op.rs:6-113 binary_op", "dandy-cli/src/test_files.rs:5-62 test_files", "dandy-cli/src/enumerate.rs:17-26 enumerate_file", "dandy-cli/src/automata.rs:68-72 load_file"]}
{"id": "C100", "title": "The whole process", "statement": "A command line that asks for a run gets it, whatever others do to the files meanwhile and whichever writes fail; any other command line is refused before anything is read or written. What an accepted process says is about the texts that its reads find; each stream gets a prefix of what it would get without failing writes, and all of it if the status is 0. The process always ends, with status 0, or with 101 because a write failed: nothing else panics. With --less-logs nothing is logged. Alone on the machine and with working streams it does what the run on fixed files does.", "quantifier": "all argument lists, contents found by reads, results of creating the output file, patterns of failing writes and hash orders", "why_tests_cant": "Tests run the tool with a few command lines on files that stay and streams that work; the combinations of arguments, concurrent edits and failures are unbounded.", "anchors": ["dandy-cli/src/main.rs:283-331 main", "dandy-cli/src/main.rs:21-70 DandyArgs, Operation", "dandy-cli/src/equivalence.rs:36-96 equivalence", "dandy-cli/src/binary_op.rs:6-113 binary_op", "dandy-cli/src/test_files.rs:5-62 test_files", "dandy-cli/src/enumerate.rs:6-57 enumerate"]}
{"id": "C101", "title": "The process in bytes", "statement": "Files that are no UTF-8 are reported as unreadable, all others are read as the text they encode. What a process writes is the UTF-8 encoding of its lines. If a write fails after some bytes, what arrived is what the process of characters brings, plus possibly the beginning of one character in one stream. Read again, each stream and the output file is a prefix of the complete one, or no text at all; the latter happens to at most one of them, and only if the status is 101.", "quantifier": "all argument lists, bytes found by reads, results of creating the output file, patterns of writes failing after any number of bytes, and hash orders", "why_tests_cant": "Cuts inside of a character depend on buffer sizes and the moment of the failure; tests with ASCII files on a healthy disk never see them.", "anchors": ["dandy-cli/src/main.rs:283-331 main", "dandy-cli/src/automata.rs:68-72 load_file", "dandy-cli/src/equivalence.rs:36-41 equivalence, 153-161 test_equivalence", "dandy-cli/src/test_files.rs:5-62 test_files"]}
{"id": "C102", "title": "A table whose end is missing", "statement": "If the end of a printed table of a DFA or NFA is missing, for example because the disk was full, what remains is refused, or it loads as an automaton with the same alphabet and language; if every state is reachable, it is the same automaton. (For NFAs, this always holds. For DFAs, it is false in general, because nothing marks the end of a table: if the name of a state is the beginning of another one's name, a cut can turn one target into another. It holds if no name of a state is the beginning of another one, for prefixes of the text and of its UTF-8 encoding; for example for unions, intersections and differences, if the names of their inputs contain no closing parenthesis and those of one input no comma. The same is true of the output file of dandy-cli after a run that ran out of space.)", "quantifier": "all valid DFAs and NFAs with legal names and symbols, and all prefixes of their tables, in characters and in bytes; all texts that load", "why_tests_cant": "Tests cut a few tables at a few places; names that begin with other names are rare, and which cuts are dangerous depends on the last line only.", "anchors": ["dandy/src/parser/mod.rs:102-106 dfa", "dandy/src/dfa/parse.rs:24-109 TryFrom<ParsedDfa> for Dfa", "dandy/src/dfa/mod.rs:857-892 to_table", "dandy-cli/src/main.rs:283-331 main"]}
