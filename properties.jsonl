{"id": "C01", "title": "Grammar constructor validation", "statement": "ContextFreeGrammar::new panics exactly when some production has the epsilon symbol as input, has an empty output, or has an output that contains epsilon next to another symbol; otherwise it returns a grammar, and no other panic is possible.", "quantifier": "every epsilon/initial symbol, every production list, every hash iteration order", "why_tests_cant": "the space of production lists is infinite and the checks run in random hash order", "anchors": ["src/grammar/context_free_grammar.rs::new", "src/grammar/context_free_grammar.rs::new_check_productions_map"]}
{"id": "C02", "title": "Terminal/non-terminal partition", "statement": "For a constructed grammar, is_non_terminal(x) holds iff x is the input of a declared production, is_terminal(x) holds iff x occurs in some output and is no production's input; the two never overlap, epsilon is never a non-terminal, and get_(non_)terminal_symbols list exactly those symbols without duplicates.", "quantifier": "every accepted production list, every symbol, every hash order", "why_tests_cant": "must hold for all grammars", "anchors": ["src/grammar/context_free_grammar.rs::is_terminal", "src/grammar/context_free_grammar.rs::is_non_terminal", "src/grammar/context_free_grammar.rs::get_terminal_symbols", "src/grammar/context_free_grammar.rs::get_non_terminal_symbols", "src/grammar/context_free_grammar.rs::build_terminal_symbols_set"]}
{"id": "C03", "title": "Grammar production lookup", "statement": "get_productions(x) returns exactly the declared productions with input x, in declaration order and with multiplicity; it is None iff there are none.", "quantifier": "every production list and symbol", "why_tests_cant": "infinitely many production lists and interleavings of inputs", "anchors": ["src/grammar/context_free_grammar.rs::get_productions", "src/grammar/context_free_grammar.rs::new_process_productions_map"]}
{"id": "C04", "title": "FIRST/FOLLOW construction terminates without panicking", "statement": "FirstFollowSymbols::from returns for every constructed grammar (its convergence loops stop after a number of rounds bounded by the grammar size) and never panics: no unwrap on a missing key, no index underflow, no RefCell borrow conflict.", "quantifier": "every constructed grammar (including left-recursive, cyclic and useless ones), every hash order in every round", "why_tests_cant": "convergence and absence of borrow conflicts depend on every grammar and every iteration order", "anchors": ["src/grammar/first_follow_symbols.rs::from", "src/grammar/first_follow_symbols.rs::converge", "src/grammar/first_follow_symbols.rs::inner_get_first_symbols", "src/grammar/first_follow_symbols.rs::inner_get_follow_symbols"]}
{"id": "C05", "title": "FIRST is exact", "statement": "For every symbol X of the grammar, get_first_symbols(X) contains a terminal a iff X derives a string starting with a, and contains epsilon iff X derives the empty string; nothing else.", "quantifier": "every constructed grammar, symbol and terminal, every hash order", "why_tests_cant": "derivations are unbounded", "anchors": ["src/grammar/first_follow_symbols.rs::get_first_symbols", "src/grammar/first_follow_symbols.rs::inner_get_first_symbols"]}
{"id": "C06", "title": "FIRST/FOLLOW key and content hygiene", "statement": "get_first_symbols(X) is Some iff X occurs in the grammar; get_follow_symbols(X) is Some iff X is a non-terminal; FIRST sets hold only terminals of the grammar (epsilon included); FOLLOW sets hold only terminals and never epsilon; sets have no duplicates.", "quantifier": "every constructed grammar and symbol", "why_tests_cant": "must hold for all grammars", "anchors": ["src/grammar/first_follow_symbols.rs::get_first_symbols", "src/grammar/first_follow_symbols.rs::get_follow_symbols"]}
{"id": "C07", "title": "FOLLOW is sound", "statement": "If a is in get_follow_symbols(A) then a is a non-epsilon terminal and some sentential form derived from a non-terminal of the grammar has a immediately after A; if every non-terminal is reachable from the initial symbol, that form is derivable from the initial symbol.", "quantifier": "every constructed grammar, A, a, hash order", "why_tests_cant": "derivations are unbounded", "anchors": ["src/grammar/first_follow_symbols.rs::get_follow_symbols", "src/grammar/first_follow_symbols.rs::inner_get_follow_symbols"]}
{"id": "C08", "title": "FOLLOW is complete", "statement": "If some sentential form derived from a non-terminal has the terminal a immediately after the non-terminal A, then a is in get_follow_symbols(A).", "quantifier": "every constructed grammar, A, a, hash order", "why_tests_cant": "derivations are unbounded; the failing case (a non-terminal repeated back to back) is not in the test-suite", "anchors": ["src/grammar/first_follow_symbols.rs::get_follow_symbols_process_production_non_terminal_symbol", "src/grammar/first_follow_symbols.rs::get_follow_symbols_process_production_last_epsilon_chain"]}
{"id": "C09", "title": "Independence of hash seeds", "statement": "FIRST and FOLLOW sets, every transition cell (as an ordered list) and the outcome of every parse (tree, error report, fix, solver calls, panic or divergence) are the same for any two hash iteration orders.", "quantifier": "all pairs of iteration orders at every iteration of every hash collection, every grammar, every token sequence, every solver", "why_tests_cant": "RandomState draws a fresh order per process; tests see a handful", "anchors": ["src/grammar/context_free_grammar.rs::get_non_terminal_symbols", "src/grammar/first_follow_symbols.rs::from", "src/parser/recursive_descent_parser_transitions.rs::from", "src/parser/recursive_descent_parser.rs::parse_from_tokens"]}
{"id": "C10", "title": "Parser construction never panics", "statement": "RecursiveDescentParser::from_grammar / from_grammar_and_solver and RecursiveDescentParserTransitions::from(grammar, FirstFollowSymbols::from(grammar)) return for every constructed grammar.", "quantifier": "every constructed grammar, hash order", "why_tests_cant": "every unwrap in the table construction must be safe for all grammars", "anchors": ["src/parser/recursive_descent_parser_transitions.rs::from", "src/parser/recursive_descent_parser.rs::from_grammar", "src/parser/recursive_descent_parser.rs::from_grammar_and_solver"]}
{"id": "C11", "title": "Transition table contents", "statement": "get_productions(A, a) of the transition table is None iff A is not a non-terminal or a is not a terminal symbol of the grammar; otherwise it lists, in declaration order and with multiplicity, exactly the productions A -> X... with a in FIRST(X) minus epsilon, or with epsilon in FIRST(X) and a in FOLLOW(X) (FOLLOW(A) if X is epsilon).", "quantifier": "every constructed grammar, A, a, hash order", "why_tests_cant": "quantifies over all grammars and cells", "anchors": ["src/parser/recursive_descent_parser_transitions.rs::get_productions", "src/parser/recursive_descent_parser_transitions.rs::inner_from_get_production_first_symbols"]}
{"id": "C12", "title": "Transition table covers Algorithm 4.31", "statement": "Every production that the textbook predictive-table construction (quoted in the source) puts in M[A,a] is in the cell (A,a).", "quantifier": "every constructed grammar, A, a", "why_tests_cant": "semantic FIRST/FOLLOW are infinite objects", "anchors": ["src/parser/recursive_descent_parser_transitions.rs::inner_from_get_production_first_symbols"]}
{"id": "C13", "title": "Transition table is no larger than Algorithm 4.31", "statement": "Every production in the cell (A,a) is put in M[A,a] by the textbook construction (the source comment presents its alternative algorithm as a way to determine the same symbols).", "quantifier": "every constructed grammar, A, a", "why_tests_cant": "semantic FIRST/FOLLOW are infinite objects", "anchors": ["src/parser/recursive_descent_parser_transitions.rs::inner_from_get_production_first_symbols"]}
{"id": "C14", "title": "Parse trees are valid", "statement": "If parse_from_tokens returns Ok(tree), the root is the initial symbol, every inner node together with its children is an instance of a declared production, inner and epsilon nodes carry no lexeme, and the non-epsilon leaves are, in order, clones of the first k input tokens for some k.", "quantifier": "every grammar, every FirstFollowSymbols supplied by the user, every solver, every token sequence", "why_tests_cant": "unbounded inputs, trees and backtracking histories", "anchors": ["src/parser/recursive_descent_parser.rs::parse_from_tokens", "src/parser/recursive_descent_parser.rs::inner_parse_from_tokens_production_build_node"]}
{"id": "C15", "title": "Accepted inputs are in the language", "statement": "If parse_from_tokens returns Ok(tree), the token types of the consumed prefix are derivable from the initial symbol.", "quantifier": "every grammar, solver and token sequence", "why_tests_cant": "unbounded derivations", "anchors": ["src/parser/recursive_descent_parser.rs::parse_from_tokens"]}
{"id": "C16", "title": "Ok means the whole input was consumed", "statement": "If parse_from_tokens returns Ok(tree), the leaves of the tree cover all the input tokens (so trailing garbage is rejected).", "quantifier": "every grammar and token sequence", "why_tests_cant": "requires all inputs; tests only use inputs that end in Eof", "anchors": ["src/parser/recursive_descent_parser.rs::parse_symbol_result_to_parse_result", "src/parser/recursive_descent_parser.rs::parse_from_tokens"]}
{"id": "C17", "title": "Parsing never panics on non-empty input", "statement": "parse_from_tokens does not panic on a non-empty token sequence.", "quantifier": "every grammar, solver and non-empty token sequence", "why_tests_cant": "truncated inputs and solver positions are unbounded", "anchors": ["src/parser/recursive_descent_parser.rs::inner_parse_from_tokens_production_non_terminal", "src/parser/recursive_descent_parser.rs::inner_parse_from_tokens_try_fix_productions", "src/parser/recursive_descent_parser.rs::inner_parse_from_tokens_production_build_node"]}
{"id": "C18", "title": "Empty input always panics", "statement": "parse_from_tokens on an empty iterator panics with the documented message for every parser.", "quantifier": "every parser", "why_tests_cant": "every grammar and solver", "anchors": ["src/parser/recursive_descent_parser.rs::parse_from_tokens"]}
{"id": "C19", "title": "Parsing terminates without left recursion", "statement": "If no non-terminal A that occurs in a form derived from the initial symbol derives (in one or more steps) a form that starts with A, parse_from_tokens returns or panics on every input when there is no solver; with a solver it does so whenever every position the solver returns is beyond the position it was called with.", "quantifier": "every grammar without left recursion reachable from its initial symbol, every token sequence, every progressing solver", "why_tests_cant": "termination is a property of all executions", "anchors": ["src/parser/recursive_descent_parser.rs::inner_parse_from_tokens", "src/parser/recursive_descent_parser.rs::inner_parse_from_tokens_production", "src/parser/recursive_descent_parser.rs::inner_parse_pop_states"]}
{"id": "C20", "title": "Direct left recursion tried first diverges", "statement": "If the first candidate production of the initial symbol for the first token starts with the initial symbol, parse_from_tokens never returns.", "quantifier": "every such grammar, first token and rest of the input", "why_tests_cant": "non-termination cannot be observed by a test", "anchors": ["src/parser/recursive_descent_parser.rs::inner_parse_from_tokens"]}
{"id": "C21", "title": "Solver progress is needed for termination", "statement": "parse_from_tokens terminates on grammars without left recursion for every solver.", "quantifier": "every grammar without left recursion, every solver, every token sequence", "why_tests_cant": "termination is a property of all executions", "anchors": ["src/parser/recursive_descent_parser.rs::inner_parse_from_tokens_production", "src/parser/syntax_error_solver.rs::SyntaxErrorSolver"]}
{"id": "C22", "title": "Every LL(1) sentence is accepted", "statement": "For a grammar that is LL(1) in the textbook sense and whose initial productions end in an end-of-input terminal, parse_from_tokens returns Ok on every sentence of the language.", "quantifier": "every LL(1) grammar and every sentence", "why_tests_cant": "infinitely many sentences", "anchors": ["src/parser/recursive_descent_parser.rs::parse_from_tokens", "src/parser/recursive_descent_parser_transitions.rs::from", "src/grammar/first_follow_symbols.rs::from"]}
{"id": "C23", "title": "Conflict-free tables are parsed exactly", "statement": "If every transition cell holds at most one production, repeated neighbours are harmless and the initial productions end in a non-epsilon terminal, then for every parse tree of the initial symbol whose leaves are a prefix of the input, parse_from_tokens returns exactly that tree (hence sentences are accepted and unambiguous), whatever the solver. (Repeated neighbours are harmless if wherever a production reachable from the initial symbol has B B, the terminals that can start B are in FOLLOW of the non-terminals that can end B and derive the empty word; in particular if there is no B B.)", "quantifier": "every such grammar, tree, input and solver", "why_tests_cant": "infinitely many sentences and trees", "anchors": ["src/parser/recursive_descent_parser.rs::parse_from_tokens", "src/parser/recursive_descent_parser_transitions.rs::get_productions"]}
{"id": "C24", "title": "Ordered choice with sibling backtracking", "statement": "Without a solver, parse_from_tokens computes exactly the ordered-choice semantics: candidates of a symbol are tried in table order, the first that succeeds is kept, and when a later sibling of the same production fails the most recent earlier sibling is re-tried with its remaining candidates only (choices inside an already parsed sibling are final). It returns a tree iff ordered choice finds it, an error iff ordered choice fails, and panics on an index iff ordered choice gets to a non-terminal with no token left; no other end is possible.", "quantifier": "every grammar, every non-empty token sequence, every terminating run", "why_tests_cant": "backtracking histories are unbounded", "anchors": ["src/parser/recursive_descent_parser.rs::inner_parse_from_tokens_try_parse_productions", "src/parser/recursive_descent_parser.rs::inner_parse_from_tokens_production", "src/parser/recursive_descent_parser.rs::inner_parse_pop_states"]}
{"id": "C25", "title": "Backtracking finds every parse", "statement": "If the input is a sentence of a grammar without left recursion whose initial productions end in an end-of-input terminal, parse_from_tokens returns Ok.", "quantifier": "every grammar without left recursion, every sentence", "why_tests_cant": "infinitely many grammars and sentences", "anchors": ["src/parser/recursive_descent_parser.rs::inner_parse_pop_states"]}
{"id": "C26", "title": "Error reports follow the candidates", "statement": "If parse_from_tokens returns Err(f), f and (recursively) every reported failed symbol X at its position lists one failed production per candidate production of X for the token at that position, in table order; a failed terminal lists none and the token at its position is absent or of another type; the failed symbol of a failed production occurs in that production.", "quantifier": "every grammar, solver and token sequence", "why_tests_cant": "error trees are unbounded", "anchors": ["src/parser/recursive_descent_parser.rs::inner_parse_from_tokens_fix_option_to_parse_symbol_result", "src/parser/recursive_descent_parser.rs::build_token_failed_symbol", "src/parser/failed_symbol.rs::FailedSymbol", "src/parser/failed_production.rs::FailedProduction"]}
{"id": "C27", "title": "Error reports reconstruct the production", "statement": "In every reported failed production, the symbols of parsed_symbols followed by the failed symbol and pending_symbols are exactly the symbols of the production that was tried.", "quantifier": "every grammar, solver and token sequence", "why_tests_cant": "needs all grammars; tests only have terminals before the failure", "anchors": ["src/parser/recursive_descent_parser.rs::inner_parse_from_tokens_production_build_failed_symbol", "src/parser/recursive_descent_parser.rs::inner_parse_pop_states"]}
{"id": "C28", "title": "Lexemes never influence parsing", "statement": "Without a solver, replacing every lexeme of the input by any function of it yields the same outcome with the lexemes replaced in the result.", "quantifier": "every grammar, token sequence and lexeme mapping", "why_tests_cant": "all lexeme types and values", "anchors": ["src/parser/recursive_descent_parser.rs::parse_from_tokens", "src/token/token.rs::Token"]}
{"id": "C29", "title": "Fix results need a solver that answered", "statement": "Without a solver parse_from_tokens never returns Fix and makes no solver call; with a solver, Fix is returned only if some solver call returned Some.", "quantifier": "every grammar, token sequence and solver", "why_tests_cant": "all solvers, all runs", "anchors": ["src/parser/recursive_descent_parser.rs::inner_parse_from_tokens_try_fix_productions"]}
{"id": "C30", "title": "A declining solver changes nothing", "statement": "With a solver that always answers None the result is the one obtained without solver.", "quantifier": "every grammar and token sequence", "why_tests_cant": "all runs", "anchors": ["src/parser/recursive_descent_parser.rs::inner_parse_from_tokens_try_fix_productions", "src/parser/syntax_error_solver.rs::SyntaxErrorSolver"]}
{"id": "C31", "title": "Fixing is a last resort", "statement": "(Documented: a fix attempt is the last resource used in order to parse an input.) If parse_from_tokens returns Ok(tree) without solver, it returns Ok(tree) with any solver.", "quantifier": "every grammar, token sequence and solver", "why_tests_cant": "all solvers and backtracking histories", "anchors": ["src/parser/recursive_descent_parser.rs::inner_parse_from_tokens_production", "src/parser/syntax_error_solver.rs::SyntaxErrorSolver"]}
{"id": "C32", "title": "Ok with a solver agrees with the solver-less parse", "statement": "If parse_from_tokens returns Ok(tree) with a solver, it returns the same Ok(tree) without solver.", "quantifier": "every grammar, token sequence and solver", "why_tests_cant": "all solvers and backtracking histories", "anchors": ["src/parser/recursive_descent_parser.rs::inner_parse_pop_states"]}
{"id": "C33", "title": "Solver call arguments", "statement": "Every solver call receives the complete, unmodified token vector and a position inside it; fix_failed_production is never called without a failed production.", "quantifier": "every grammar, token sequence, solver, every call", "why_tests_cant": "all runs", "anchors": ["src/parser/recursive_descent_parser.rs::inner_parse_from_tokens_try_fix_productions", "src/parser/syntax_error_solver.rs::SyntaxErrorSolver"]}
{"id": "C34", "title": "Solver call contract: candidates", "statement": "(Documented) fix_failed_productions is called only for a symbol with multiple candidate productions, fix_failed_production only for a symbol with a single candidate production.", "quantifier": "every grammar, token sequence, solver, every call", "why_tests_cant": "all runs", "anchors": ["src/parser/syntax_error_solver.rs::SyntaxErrorSolver", "src/parser/recursive_descent_parser.rs::is_child_single_path", "src/parser/recursive_descent_parser.rs::inner_parse_pop_states"]}
{"id": "C35", "title": "Fix reports are aligned with the grammar", "statement": "If parse_from_tokens returns Fix(f), f is for the initial symbol and every fixed symbol in it that the solver did not supply itself has one part per symbol of a declared production of that symbol: Ok parts are valid trees for that symbol, and at least one part is a fixed symbol.", "quantifier": "every grammar, token sequence and solver", "why_tests_cant": "all runs, unbounded reports", "anchors": ["src/parser/recursive_descent_parser.rs::inner_parse_from_tokens_production_build_node", "src/parser/fixed_production.rs::FixedProduction"]}
{"id": "C36", "title": "Initial symbol without productions", "statement": "If the initial symbol is the input of no production, parse_from_tokens on every non-empty input without solver returns Err naming the initial symbol with no failed productions.", "quantifier": "every such grammar and every non-empty token sequence", "why_tests_cant": "all inputs", "anchors": ["src/parser/recursive_descent_parser.rs::inner_get_token_productions", "src/grammar/context_free_grammar.rs::new"]}
{"id": "C37", "title": "Epsilon tokens are never consumed", "statement": "If parse_from_tokens returns Ok, none of the consumed input tokens has the epsilon type, and the epsilon column of the transition table is empty.", "quantifier": "every grammar, token sequence and solver", "why_tests_cant": "all inputs", "anchors": ["src/parser/recursive_descent_parser.rs::inner_parse_terminal_symbol", "src/parser/recursive_descent_parser_transitions.rs::inner_from_get_production_first_symbols"]}
{"id": "C38", "title": "Trailing tokens do not change an accepted parse", "statement": "If parse_from_tokens(ts) returns Ok(tree), then parse_from_tokens(ts followed by any tokens) returns Ok(tree).", "quantifier": "every grammar, token sequence and extension", "why_tests_cant": "all inputs and extensions", "anchors": ["src/parser/recursive_descent_parser.rs::parse_from_tokens"]}
{"id": "C39", "title": "Token equality", "statement": "Token equality is an equivalence relation that ignores lexemes, and != is its negation.", "quantifier": "all tokens", "why_tests_cant": "all token values", "anchors": ["src/token/token.rs::Token"]}
{"id": "C40", "title": "LL(1) decision procedure", "statement": "For a grammar with at most one production per transition cell, harmless repeated neighbours, no left recursion reachable from the initial symbol, and a unique end-of-input terminal that ends exactly the initial productions: on every input that ends in its only end-of-input token, parse_from_tokens returns (no panic, no divergence); it returns Ok iff the token types are a sentence of the grammar, and then the tree covers the whole input. (Repeated neighbours are harmless if wherever a production reachable from the initial symbol has B B, the terminals that can start B are in FOLLOW of the non-terminals that can end B and derive the empty word; in particular if there is no B B.)", "quantifier": "every such grammar and every such input", "why_tests_cant": "infinitely many inputs; both directions needed", "anchors": ["src/parser/recursive_descent_parser.rs::parse_from_tokens", "src/parser/recursive_descent_parser.rs::from_grammar"]}
{"id": "C41", "title": "User-supplied FIRST/FOLLOW cannot break soundness", "statement": "from_grammar_and_first_follow_symbols with arbitrary FIRST/FOLLOW maps either panics at construction or yields a parser whose cells only hold declared productions of the right symbol, so its Ok trees are still valid.", "quantifier": "every grammar and all user-supplied maps", "why_tests_cant": "arbitrary maps", "anchors": ["src/parser/recursive_descent_parser.rs::from_grammar_and_first_follow_symbols", "src/grammar/first_follow_symbols.rs::new"]}
{"id": "C42", "title": "Rejections are justified", "statement": "Without a solver, if parse_from_tokens returns Err on an input on which every candidate production of a symbol that has a right sibling can end at only one position, then no parse tree of the initial symbol over a prefix of the input is compatible with the transition table's lookahead; and if repeated neighbours are harmless and the initial productions end in a non-epsilon terminal, no prefix of the input is a sentence. (Repeated neighbours are harmless if wherever a production reachable from the initial symbol has B B, the terminals that can start B are in FOLLOW of the non-terminals that can end B and derive the empty word; in particular if there is no B B.)", "quantifier": "all grammars, all hash orders, all inputs with determined extents, conflicts in the table included", "why_tests_cant": "it says that no tree exists, for unboundedly many trees and inputs", "anchors": ["src/parser/recursive_descent_parser.rs::parse_from_tokens", "src/parser/recursive_descent_parser.rs::inner_parse_from_tokens_production", "src/parser/recursive_descent_parser.rs::inner_parse_pop_states"]}
{"id": "C43", "title": "Decision procedure with backtracking", "statement": "For a grammar without left recursion reachable from the initial symbol, with harmless repeated neighbours, with a unique end-of-input terminal that ends exactly the initial productions, and whose productions of symbols with a right sibling have prefix-free sentences (cells may hold several productions): on every input that ends in its only end-of-input token parse_from_tokens without solver returns; it returns Ok with a tree covering the whole input iff the token types are a sentence, and Err otherwise. (Repeated neighbours are harmless if wherever a production reachable from the initial symbol has B B, the terminals that can start B are in FOLLOW of the non-terminals that can end B and derive the empty word; in particular if there is no B B.)", "quantifier": "all such grammars, all hash orders, all such inputs", "why_tests_cant": "equivalence with the language over all inputs and nesting depths, including termination of backtracking", "anchors": ["src/parser/recursive_descent_parser.rs::parse_from_tokens", "src/parser/recursive_descent_parser.rs::inner_parse_from_tokens_production", "src/parser/recursive_descent_parser.rs::inner_parse_pop_states", "src/parser/recursive_descent_parser_transitions.rs::RecursiveDescentParserTransitions"]}
{"id": "C44", "title": "What a solver can observe", "statement": "In every run of parse_from_tokens -- returning, panicking or never returning -- the solver is only called within its contract: with the whole token vector, a position inside it, and reports of what was tried there for a symbol on a single path. Reports given to fix_failed_production quote only answers the solver gave earlier in the run, and the non-terminal that failed was offered to the solver before and refused; reports given to fix_failed_productions contain no fix. The outcome does not depend on how the solver would behave on any other call.", "quantifier": "every grammar, token sequence and pair of solvers that agree on the calls within the contract, every amount of execution", "why_tests_cant": "ranges over all solvers, histories and unfinished executions", "anchors": ["src/parser/recursive_descent_parser.rs::inner_parse_from_tokens_try_fix_productions", "src/parser/recursive_descent_parser.rs::inner_parse_from_tokens", "src/parser/syntax_error_solver.rs::SyntaxErrorSolver"]}
{"id": "C45", "title": "Under choice the solver is a last resort", "statement": "If the initial symbol does not have exactly one candidate for the first token, the solver is consulted at most once: only when the parse without solver fails, through fix_failed_productions at position 0 with all the reports of that parse; its reply alone then decides between Err with those reports and Fix.", "quantifier": "every grammar, token sequence, solver and amount of execution", "why_tests_cant": "equality of all runs of two parsers", "anchors": ["src/parser/recursive_descent_parser.rs::inner_parse_from_tokens_try_fix_productions", "src/parser/recursive_descent_parser.rs::inner_parse_from_tokens", "src/parser/syntax_error_solver.rs::SyntaxErrorSolver", "src/parser/recursive_descent_parser.rs::is_child_single_path"]}
{"id": "C46", "title": "Err was refused by the solver", "statement": "With a solver, parse_from_tokens returns Err only after the solver was asked, as its last call, to fix exactly the failed productions of the returned report at position 0, and returned None.", "quantifier": "every grammar, token sequence and solver", "why_tests_cant": "all runs", "anchors": ["src/parser/recursive_descent_parser.rs::inner_parse_from_tokens_try_fix_productions", "src/parser/recursive_descent_parser.rs::inner_parse_from_tokens", "src/parser/syntax_error_solver.rs::SyntaxErrorSolver"]}
{"id": "C47", "title": "Refused fixes escalate", "statement": "(Documented) A refused attempt to fix a symbol is followed by an attempt to fix the production it occurs in; only the attempt for the whole input may be the last call, and the parse then returns Err.", "quantifier": "every grammar, token sequence, solver and call", "why_tests_cant": "all runs and call sequences", "anchors": ["src/parser/syntax_error_solver.rs::SyntaxErrorSolver", "src/parser/recursive_descent_parser.rs::inner_parse_pop_states", "src/parser/recursive_descent_parser.rs::inner_parse_from_tokens_production"]}
{"id": "C48", "title": "Out-of-range panic means truncated input", "statement": "If the solver (if any) never supplies a fix and parse_from_tokens panics by indexing past the token vector, then every token type is a terminal, the initial symbol derives the token types followed by some non-terminal, and, if every non-terminal has a sentence, the token types are a prefix of a sentence.", "quantifier": "every grammar, token sequence and solver without answers", "why_tests_cant": "all inputs and backtracking histories", "anchors": ["src/parser/recursive_descent_parser.rs::inner_parse_from_tokens_production", "src/parser/recursive_descent_parser.rs::parse_from_tokens"]}
{"id": "C49", "title": "Errors are found at the first offending token", "statement": "For a parser without solver whose table has no conflicts (repeated neighbours are harmless, the initial symbol's productions end in a terminal), Err means: there is a position p such that the tokens before p are a prefix of what the initial symbol derives with the innermost reported symbol expected next, and no sentence starts with the tokens up to and including p (or the input ends at p and is no sentence). (Repeated neighbours are harmless if wherever a production reachable from the initial symbol has B B, the terminals that can start B are in FOLLOW of the non-terminals that can end B and derive the empty word; in particular if there is no B B.)", "quantifier": "every such grammar and token sequence", "why_tests_cant": "all inputs; viability quantifies over all sentences", "anchors": ["src/parser/recursive_descent_parser.rs::inner_parse_from_tokens", "src/parser/recursive_descent_parser.rs::inner_parse_terminal_symbol"]}
{"id": "C50", "title": "Parsing commutes with renaming", "statement": "If the symbols of a grammar are renamed by any injective map and the lexemes by any map, and the solver answers renamed calls with renamed answers, then every table cell, the parse outcome (tree, fix, error report, panic or exhausted fuel) and the sequence of solver calls are the renamed ones: the parser depends on symbols only through equality and never looks at lexemes.", "quantifier": "every grammar, injective renaming, lexeme map, token sequence, solver and depth", "why_tests_cant": "all grammars and all renamings at once", "anchors": ["src/parser/recursive_descent_parser.rs::parse_from_tokens", "src/parser/recursive_descent_parser.rs::RecursiveDescentParser::new"]}
{"id": "C51", "title": "Only the order within one symbol matters", "statement": "Two production lists that list the productions of each symbol in the same order, however they interleave different symbols, give the same table cells and the same parse outcome, reports and solver calls on every input.", "quantifier": "every pair of such production lists, solver, token sequence and depth", "why_tests_cant": "all interleavings of all grammars", "anchors": ["src/parser/recursive_descent_parser.rs::RecursiveDescentParser::new", "src/parser/recursive_descent_parser.rs::parse_from_tokens"]}
{"id": "C52", "title": "FOLLOW is exactly what the rules give", "statement": "The FOLLOW set of a non-terminal is the least family closed under the textbook rules (FIRST of what comes after it; FOLLOW of the producer when the rest of the production is nullable), except that a symbol learns nothing from a stretch of adjacent copies of itself.", "quantifier": "every grammar, hash order and symbol for which the sets are built", "why_tests_cant": "a least fixed point over all grammars", "anchors": ["src/grammar/first_follow_symbols.rs::FirstFollowSymbols"]}
{"id": "C53", "title": "More productions, more candidates", "statement": "Adding productions to a grammar (none of them for a symbol that was a terminal) only adds: FIRST and FOLLOW sets grow, and every table cell keeps its old candidates in their order.", "quantifier": "every pair of such grammars, every symbol and lookahead", "why_tests_cant": "all pairs of grammars", "anchors": ["src/grammar/first_follow_symbols.rs::FirstFollowSymbols", "src/parser/recursive_descent_parser_transitions.rs::RecursiveDescentParserTransitions"]}
{"id": "C54", "title": "Declaring a production again changes nothing", "statement": "Without a solver, two grammars that list the same productions of each symbol in the same order of first declaration, with any repetitions, give on every input the same tree, or both an error, or the same panic.", "quantifier": "every pair of such production lists and every token sequence", "why_tests_cant": "all grammars, repetitions and backtracking histories", "anchors": ["src/grammar/context_free_grammar.rs::ContextFreeGrammar", "src/parser/recursive_descent_parser.rs::inner_parse_from_tokens_try_parse_productions", "src/parser/recursive_descent_parser.rs::inner_parse_pop_states"]}
{"id": "C55", "title": "Recursion depth is linear in the input", "statement": "For a grammar without left recursion reachable from the initial symbol, and a solver that always answers positions after the one it was called with (or no solver), parse_from_tokens never has more than (number of non-terminals) x (number of tokens) nested recursive calls active: giving up when one more is needed does not change the outcome. The bound is attained.", "quantifier": "every such grammar, token sequence and solver", "why_tests_cant": "all inputs and nesting depths; a stack overflow would abort the process", "anchors": ["src/parser/recursive_descent_parser.rs::inner_parse_from_tokens", "src/parser/recursive_descent_parser.rs::inner_parse_from_tokens_production_non_terminal", "src/parser/recursive_descent_parser.rs::inner_parse_pop_states"]}
{"id": "C56", "title": "The work of a parse is linear on conflict-free tables, exponential at worst otherwise", "statement": "For a grammar whose transition cells hold at most one production each and without left recursion reachable from the initial symbol, parse_from_tokens without solver makes at most c x (number of tokens) recursive calls, with c depending on the grammar only, whether it succeeds, fails or panics; a success makes exactly one call per inner node of the returned tree. With conflicting cells the number of calls is still at most f^(n x number of tokens), f depending on the grammar only and n being its number of non-terminals; and with two candidates in a cell backtracking can really take at least 2^k calls on 2k+1 tokens although the parse succeeds.", "quantifier": "every such grammar and token sequence; every k for the exponential family", "why_tests_cant": "a bound over all inputs and grammars; timing a few inputs cannot show it", "anchors": ["src/parser/recursive_descent_parser.rs::inner_parse_from_tokens", "src/parser/recursive_descent_parser.rs::inner_parse_from_tokens_production", "src/parser/recursive_descent_parser.rs::inner_parse_pop_states"]}
{"id": "C57", "title": "Conflict-free grammars cannot hang the parser", "statement": "If every symbol reachable from the initial symbol derives some token string, the initial symbol's productions end in a terminal, and either the transition cells hold at most one production each or the grammar is LL(1) in the textbook sense, then no symbol reachable from the initial symbol is left recursive, so parse_from_tokens returns or panics on every token sequence (without solver or with a solver that always advances). Neither the final terminal nor productivity can be dropped: there are conflict-free tables on which a parse never ends.", "quantifier": "every grammar, token sequence and progressing solver", "why_tests_cant": "a statement about all grammars and all inputs; a hanging parse is not an observable test result", "anchors": ["src/parser/recursive_descent_parser_transitions.rs::from", "src/parser/recursive_descent_parser.rs::parse_from_tokens", "src/grammar/first_follow_symbols.rs::FirstFollowSymbols"]}
{"id": "C58", "title": "A parse hangs exactly when it repeats a derivation inside itself", "statement": "Without solver, parse_from_tokens on a non-empty token sequence never returns iff ordered choice with backtracking descends for ever, iff the derivation of some symbol is started again below itself at the same position with the same candidates left. Otherwise it ends (Ok, Err or the out-of-range panic, as C24 says); one of the two always holds.", "quantifier": "every grammar and non-empty token sequence", "why_tests_cant": "non-termination cannot be observed by a test; the equivalence ranges over all grammars and inputs", "anchors": ["src/parser/recursive_descent_parser.rs::inner_parse_from_tokens", "src/parser/recursive_descent_parser.rs::inner_parse_from_tokens_production", "src/parser/recursive_descent_parser.rs::inner_parse_pop_states"]}
{"id": "C59", "title": "What a parse returns, reports and asks is a function of the grammar, the input and the solver", "statement": "For any solver, parse_from_tokens on a non-empty token sequence returns an answer (tree, fix or report) after a sequence of solver calls iff that answer and those calls are the ones given by recursion on the grammar: outputs of a non-terminal tried in order, each symbol parsed in turn, a failed symbol offered to the solver exactly when nothing is left to try above it, an answer taking the place of the symbol, and a symbol that was parsed tried again with its remaining outputs when what follows it fails.", "quantifier": "every grammar, non-empty token sequence and solver (including stateful ones), every answer and call sequence", "why_tests_cant": "an equivalence between the loop with explicit stack and a semantics, over all grammars, inputs and solver behaviours", "anchors": ["src/parser/recursive_descent_parser.rs::parse_from_tokens", "src/parser/recursive_descent_parser.rs::inner_parse_from_tokens", "src/parser/recursive_descent_parser.rs::inner_parse_from_tokens_production", "src/parser/recursive_descent_parser.rs::inner_parse_pop_states", "src/parser/syntax_error_solver.rs::SyntaxErrorSolver"]}
{"id": "C60", "title": "Exactly when a parse panics", "statement": "For any solver, parse_from_tokens on a non-empty token sequence panics with an out-of-range token access iff the computation of C59 gets to a non-terminal beyond the last token, and panics in the solver iff it gets to a call at which the solver panics; it panics in no other way.", "quantifier": "every grammar, non-empty token sequence and solver", "why_tests_cant": "an equivalence over all grammars, inputs and solver behaviours", "anchors": ["src/parser/recursive_descent_parser.rs::parse_from_tokens", "src/parser/recursive_descent_parser.rs::inner_parse_from_tokens", "src/parser/recursive_descent_parser.rs::inner_parse_from_tokens_production", "src/parser/recursive_descent_parser.rs::inner_parse_pop_states", "src/parser/syntax_error_solver.rs::SyntaxErrorSolver"]}
{"id": "C61", "title": "Exactly when a parse does not end", "statement": "For any solver, parse_from_tokens on a non-empty token sequence never returns iff, for every depth n, the computation of C59 gets to a call that the solver never answers or nests derivations n deep.", "quantifier": "every grammar, non-empty token sequence and solver", "why_tests_cant": "non-termination cannot be observed by a test; the equivalence ranges over all grammars, inputs and solvers", "anchors": ["src/parser/recursive_descent_parser.rs::parse_from_tokens", "src/parser/recursive_descent_parser.rs::inner_parse_from_tokens", "src/parser/recursive_descent_parser.rs::inner_parse_from_tokens_production", "src/parser/recursive_descent_parser.rs::inner_parse_pop_states", "src/parser/syntax_error_solver.rs::SyntaxErrorSolver"]}
{"id": "C62", "title": "Exactly which supplied FIRST/FOLLOW sets are accepted", "statement": "from_grammar_and_first_follow_symbols with any FirstFollowSymbols returns a parser iff the FIRST set of the first symbol of every production is present, so is the FOLLOW set it needs when that FIRST set contains epsilon, and the tokens they select are terminals of the grammar; otherwise it panics on an unwrap and in no other way, it never hangs, and hash order does not matter. The cells of the parser are the declared productions that the sets select, in declaration order.", "quantifier": "every grammar, all FIRST/FOLLOW maps, every hash order", "why_tests_cant": "an equivalence over all grammars and maps", "anchors": ["src/parser/recursive_descent_parser.rs::from_grammar_and_first_follow_symbols", "src/parser/recursive_descent_parser_transitions.rs::from", "src/grammar/first_follow_symbols.rs::new"]}
{"id": "C63", "title": "Adequate supplied sets give exact parsers", "statement": "If the supplied sets contain what FIRST and FOLLOW are by definition - in particular if none of the textbook rules adds anything to them - then on a conflict-free table every sentence is accepted with its tree, and for a grammar with end marker and without left recursion the parser is a decision procedure for the language, also with backtracking when extents are determined. This holds for all grammars, also those for which FirstFollowSymbols::from computes too small FOLLOW sets.", "quantifier": "every grammar, all adequate FIRST/FOLLOW maps, all token sequences", "why_tests_cant": "ranges over all grammars, maps and inputs", "anchors": ["src/parser/recursive_descent_parser.rs::from_grammar_and_first_follow_symbols", "src/parser/recursive_descent_parser.rs::parse_from_tokens", "src/grammar/first_follow_symbols.rs::new"]}
{"id": "C64", "title": "Only the elements of the supplied sets matter, and larger sets only add", "statement": "Two FirstFollowSymbols with the same sets give parsers with identical results on every input; supplying what FirstFollowSymbols::from computes gives the parser of from_grammar. Larger sets only add candidates to cells, in declaration order, and if the table for the larger sets is conflict-free every input accepted with the smaller ones is accepted with the same tree.", "quantifier": "every grammar, all pairs of FIRST/FOLLOW maps, all token sequences", "why_tests_cant": "relates two parsers over all maps and inputs", "anchors": ["src/parser/recursive_descent_parser.rs::from_grammar_and_first_follow_symbols", "src/parser/recursive_descent_parser.rs::from_grammar", "src/parser/recursive_descent_parser_transitions.rs::from"]}
{"id": "C65", "title": "Growing a grammar without conflicts keeps accepted inputs and trees", "statement": "If productions are added anywhere to a grammar, none of them for a terminal of it, and the table of the larger grammar is conflict-free, then every token sequence the smaller grammar's parser accepts is accepted by the larger grammar's parser with the same tree, whatever solvers they have. (With conflicts, inputs can be lost.)", "quantifier": "every pair of grammars where one extends the other, all token sequences and solvers", "why_tests_cant": "relates two parsers for all grammars and inputs", "anchors": ["src/parser/recursive_descent_parser.rs::from_grammar", "src/parser/recursive_descent_parser.rs::parse_from_tokens", "src/parser/recursive_descent_parser_transitions.rs::from"]}
{"id": "C66", "title": "The token iterator is read to its end, once, before parsing", "statement": "parse_from_tokens calls next until it first returns None and never again; the result is that of the tokens yielded. If next panics before, the parse panics with that panic whatever grammar, tokens and solver are (no solver call is made); if the iterator never ends or a call of next never returns, the parse never returns.", "quantifier": "every parser, every iterator (arbitrary user code), every solver", "why_tests_cant": "iterators are arbitrary user code; non-termination is not observable by a test", "anchors": ["src/parser/recursive_descent_parser.rs::parse_from_tokens", "src/parser/recursive_descent_parser.rs::iterator_to_vec"]}
{"id": "C67", "title": "A parser can be reused: only the solver's own state is carried over", "statement": "In any sequence of parses with one parser, every parse gives what a parser gives whose solver is in the state the earlier parses left it in; with no solver, or one whose answers depend on the call only, every parse gives exactly what it gives alone. Every Ok tree of a session is valid, and sessions of parsers without left recursion and with an advancing solver end.", "quantifier": "every parser, every sequence of inputs, every (stateful) solver", "why_tests_cant": "ranges over all histories of use", "anchors": ["src/parser/recursive_descent_parser.rs::parse_from_tokens", "src/parser/syntax_error_solver.rs::SyntaxErrorSolver"]}
{"id": "C68", "title": "Only the user's symbol equality matters, not identity", "statement": "If the symbol type's Eq (and, consistently, Hash) compares only a key of each symbol, then ContextFreeGrammar::new, FirstFollowSymbols::from, the parser constructors and parse_from_tokens do on symbols exactly what they do on the keys: same panics, same FIRST/FOLLOW sets, same candidates, same results, reports and solver calls up to equal symbols. So replacing symbols of the grammar or of the input by equal ones changes a result only in the representatives shown, and every property proved for identity carries over. Every lawful Eq with finitely many classes of equal symbols compares such keys.", "quantifier": "every symbol type, key function and Eq that compares keys, every hash iteration order that depends on keys only, every grammar, solver (up to keys) and token sequence", "why_tests_cant": "Tests use a few symbol types with derived equality; the claim is about every lawful Eq implementation.", "anchors": ["src/grammar/context_free_grammar.rs::new", "src/grammar/first_follow_symbols.rs::from", "src/parser/recursive_descent_parser_transitions.rs::RecursiveDescentParserTransitions", "src/parser/recursive_descent_parser.rs::parse_from_tokens"]}
{"id": "C69", "title": "LL(1) grammars with nullable alternatives last are parsed exactly, whatever conflicts the table has", "statement": "If the grammar is LL(1), and every alternative that can derive the empty string is declared after the other alternatives of its symbol, then (no left recursion, harmless repeated neighbours, initial productions ending in a terminal) the parser without solver returns the parse tree of every sentence, and of every token list that starts with one, although the table can hold several candidates for a token: each wrong candidate tried before the right one fails by itself, without reading past the end. With an end marker Ok is returned for sentences only, Err for everything else. Moving the nullable alternative last repairs the grammar that refutes C22.", "quantifier": "every such grammar, every hash order, every token list", "why_tests_cant": "ranges over all LL(1) grammars and all inputs; the wrong candidates come from an over-approximated table", "anchors": ["src/parser/recursive_descent_parser.rs::parse_from_tokens", "src/parser/recursive_descent_parser_transitions.rs::from"]}
{"id": "C70", "title": "A table without conflicts certifies that the grammar is LL(1) and unambiguous", "statement": "If no cell of the transition table of a grammar with an end marker holds two productions, then the grammar is LL(1) in the textbook sense and no token list has two parse trees.", "quantifier": "every grammar, hash order, solver and token list", "why_tests_cant": "ambiguity ranges over all inputs; the table is finite evidence about an infinite language", "anchors": ["src/parser/recursive_descent_parser_transitions.rs::from", "src/grammar/first_follow_symbols.rs::from"]}
{"id": "C71", "title": "Returned trees are linear in the input", "statement": "For a grammar without left recursion reachable from the initial symbol, a tree returned by parse_from_tokens covers some first k tokens, has at most c x max(1, k) nodes with c depending on the grammar only, and at most 1 + (number of non-terminals) x (k + 1) levels.", "quantifier": "every such grammar, conflicts allowed, every solver and token sequence", "why_tests_cant": "a bound on memory over all inputs and grammars", "anchors": ["src/ast/abstract_syntax_node.rs::AbstractSyntaxNode", "src/parser/recursive_descent_parser.rs::parse_from_tokens"]}
{"id": "C72", "title": "How large error reports get", "statement": "For a grammar without left recursion reachable from the initial symbol, and a solver that always answers positions after the one it was called with (or no solver), an error report of parse_from_tokens has at most d = 1 + (number of non-terminals) x (number of tokens) levels and, when no transition cell holds more than K productions, at most 1 + K + K^2 + ... + K^(d-1) failed symbols: at most d on a conflict-free table. With K = 2 a report can contain 2^(k+1) - 1 failed symbols on k + 1 tokens.", "quantifier": "every such grammar, solver and token sequence; every k for the exponential family", "why_tests_cant": "a bound over all inputs; the blow-up shows on no short input", "anchors": ["src/parser/failed_symbol.rs::FailedSymbol", "src/parser/recursive_descent_parser.rs::inner_parse_from_tokens_try_parse_productions"]}
{"id": "C73", "title": "Productions the initial symbol cannot reach", "statement": "Productions of symbols that the initial symbol cannot reach do not change the result of any parse.", "quantifier": "every grammar with its reachable part, every solver and token sequence", "why_tests_cant": "a claim over all pairs of grammars and all inputs; it fails only through FOLLOW sets shared with dead productions", "anchors": ["src/grammar/first_follow_symbols.rs::FirstFollowSymbols", "src/parser/recursive_descent_parser_transitions.rs::RecursiveDescentParserTransitions", "src/parser/recursive_descent_parser.rs::parse_from_tokens"]}
{"id": "C74", "title": "The initial symbol only says where parsing starts", "statement": "The same productions are accepted or refused whatever the initial symbol; terminals, non-terminals, productions, FIRST and FOLLOW sets and the transition table do not depend on it, and the sets computed for one initial symbol may be supplied to a parser for another one, which then parses as if it had computed its own.", "quantifier": "every list of productions, every two initial symbols, all hash iteration orders, every token sequence", "why_tests_cant": "a claim over all grammars and pairs of initial symbols", "anchors": ["src/grammar/context_free_grammar.rs::ContextFreeGrammar::new", "src/grammar/first_follow_symbols.rs::FirstFollowSymbols", "src/parser/recursive_descent_parser.rs::from_grammar_and_first_follow_symbols"]}
{"id": "C75", "title": "Parts of a parse are parses", "statement": "If a parse returns a tree, then for every inner node the parser for that node's symbol, given the tokens from the node's first token on, returns exactly that subtree.", "quantifier": "every grammar, token sequence, returned tree and inner node of it", "why_tests_cant": "a claim over all trees and all their nodes; it fails only when an inner node is a later choice forced by what follows it", "anchors": ["src/parser/recursive_descent_parser.rs::parse_from_tokens", "src/parser/recursive_descent_parser.rs::inner_parse_from_tokens_production_non_terminal"]}
{"id": "C76", "title": "An accepted parse depends on one token of lookahead", "statement": "With at most one production per transition cell, if a parse returns a tree covering the first k tokens then every input that starts with the same k+1 tokens gives the same tree; if the initial productions end in a terminal, the same k tokens are enough.", "quantifier": "every conflict-free grammar, solver, token sequence and continuation", "why_tests_cant": "a claim over all continuations of an input", "anchors": ["src/parser/recursive_descent_parser.rs::parse_from_tokens", "src/parser/recursive_descent_parser.rs::inner_parse_from_tokens_production_non_terminal"]}
{"id": "C77", "title": "Reparsing a part of the input", "statement": "With at most one production per transition cell, harmless repeated neighbours and initial productions that end in a terminal: if a parse returned a tree, and the tokens of one of its parts are replaced by tokens that the parser of the part's symbol parses, the parse of the new input returns the old tree with just that part replaced.", "quantifier": "every such grammar, token sequence, part of the tree and replacement, all solvers", "why_tests_cant": "a claim over all trees, parts and replacements", "anchors": ["src/parser/recursive_descent_parser.rs::parse_from_tokens", "src/ast/abstract_syntax_node.rs::AbstractSyntaxNode"]}
{"id": "C78", "title": "Among several parses the earliest declared wins", "statement": "When the grammar is ambiguous for an input (several parse trees exist) and no solver is set, the tree parse_from_tokens returns is the one that comes first in the order of declaration: comparing it with any other parse tree of a prefix of the input, top down and from left to right, at the first place where the two use different productions the returned tree uses the one that was passed earlier to ContextFreeGrammar::new. So the user settles ambiguities by the order of the productions.", "quantifier": "every ambiguous grammar, every input, every two parse trees of (a prefix of) the input", "why_tests_cant": "the number of parse trees of an input grows exponentially with its length, and where two trees first differ can be arbitrarily deep", "anchors": ["src/parser/recursive_descent_parser.rs::inner_parse_from_tokens_production", "src/parser/recursive_descent_parser.rs::inner_parse_from_tokens_try_parse_productions", "src/parser/recursive_descent_parser.rs::inner_parse_pop_states", "src/parser/recursive_descent_parser_transitions.rs::from"]}
{"id": "C79", "title": "Positions and indexes never overflow", "statement": "No usize addition or subtraction of the library overflows: on a machine of any word size, for productions and token vectors that fit (at most usize::MAX elements), building the FIRST/FOLLOW sets and the parser and parsing give the same results, panics and solver calls as with unbounded integers, whatever overflow would do (a panic in debug builds, a wrapped value in release builds).", "quantifier": "every word size, overflow behaviour, grammar, solver (answering any position, usize::MAX included) and token sequence", "why_tests_cant": "overflows sit at positions no test reaches, and debug and release builds differ there", "anchors": ["src/parser/recursive_descent_parser.rs::inner_parse_non_epsilon_terminal_symbol", "src/parser/recursive_descent_parser.rs::inner_parse_from_tokens_production", "src/parser/recursive_descent_parser.rs::inner_parse_from_tokens_production_build_failed_symbol", "src/parser/recursive_descent_parser.rs::inner_parse_pop_states", "src/grammar/first_follow_symbols.rs::get_follow_symbols_process_production"]}
{"id": "C80", "title": "Parses may run at the same time", "statement": "One parser (and one solver) may serve several parses that run at the same time. In every interleaving each parse that ends did what it does alone with a solver giving it the same replies: same result or panic, same calls. If the solver's replies to a parse depend only on that parse's own calls (no state, or one state per parse), the other parses have no influence at all, no interleaving runs forever when each parse ends alone, and all end with the results and calls they have alone. A parse without solver cannot be interrupted at a solver call.", "quantifier": "every number of parses, parsers, inputs, shared solver (with any state) and schedule of the solver calls", "why_tests_cant": "there are exponentially many schedules and a test sees one of them", "anchors": ["src/parser/recursive_descent_parser.rs::parse_from_tokens", "src/parser/recursive_descent_parser.rs::inner_parse_from_tokens_try_fix_productions", "src/parser/syntax_error_solver.rs::SyntaxErrorSolver"]}
{"id": "C81", "title": "Building the sets and the table is cheap", "statement": "For a grammar with N non-terminals, the loop that computes FIRST ends after at most 2N+1 rounds and the one that computes FOLLOW after at most N+1, however many terminals and productions there are. Each FIRST and FOLLOW set holds at most as many symbols as there are terminals, and the whole table at most as many entries as there are pairs of a production and a terminal.", "quantifier": "every symbol type, epsilon, initial symbol, production list and hash iteration order", "why_tests_cant": "the worst number of rounds depends on how productions chain through one another; a test times a few grammars and cannot bound all of them", "anchors": ["src/grammar/first_follow_symbols.rs::converge", "src/grammar/first_follow_symbols.rs::inner_get_first_symbols", "src/grammar/first_follow_symbols.rs::inner_get_follow_symbols", "src/parser/recursive_descent_parser_transitions.rs::inner_from"]}
{"id": "C82", "title": "Refactoring a grammar: only the language decides what is accepted", "statement": "A parser whose grammar meets the conditions of C23 (no conflicts in the table) or C69 (LL(1), nullable alternatives last) accepts an input exactly when it starts with a sentence, and consumes exactly that sentence. Hence two such parsers, for grammars with different productions, non-terminals, epsilon and initial symbols, accept the same inputs if and only if the grammars describe the same language, and then they consume the same tokens of each input. With a common end marker and no left recursion they also reject the same inputs: each input gets Ok from both or Err from both.", "quantifier": "every pair of grammars that meet the conditions, every hash order, solver, input", "why_tests_cant": "a refactored grammar has to agree with the old one on infinitely many inputs", "anchors": ["src/parser/recursive_descent_parser.rs::parse_from_tokens", "src/parser/recursive_descent_parser.rs::from_grammar", "src/parser/recursive_descent_parser_transitions.rs::inner_from"]}
{"id": "C83", "title": "Fixed parses account for the tokens and follow the grammar if the solver does", "statement": "If every answer of the solver accounts for the tokens it steps over (the lexemes of its trees, fixed symbols and gaps, from left to right, are those of the tokens from the position of the call to the position where parsing goes on), then so does every Fix result: its lexemes are those of the tokens from the start of the input to some position. With an end marker it accounts for all the tokens, unless the solver answered a call about the initial symbol itself. If every answer to a call about a symbol spells a production of that symbol, part by part, gaps included, then the Fix result is in the same sense a derivation of the initial symbol at every level.", "quantifier": "every grammar, hash order, solver with the stated discipline (any history-dependent behaviour), input, depth of nesting", "why_tests_cant": "the positions a solver answers with move the rest of the parse, over unboundedly nested fixes; a token dropped or counted twice at a join would show only for particular combinations", "anchors": ["src/parser/recursive_descent_parser.rs::inner_parse_from_tokens_try_fix_productions", "src/parser/recursive_descent_parser.rs::inner_parse_from_tokens_production_build_node", "src/parser/fixed_production_part.rs::FixedProductionPart", "src/parser/fix_gap.rs::FixGap", "src/parser/syntax_error_solver.rs::SyntaxErrorSolver"]}
{"id": "C84", "title": "How often the solver is asked", "statement": "Each recursive call of the parser asks the solver at most once. With a solver that always answers with a position after the one it was asked about and no left recursion, a parse makes at most f^(n x number of tokens) recursive calls (hence calls of the solver), f depending on the grammar only and n being its number of non-terminals. A solver that declines all calls of a parse is asked at most once per recursive call that the parser without solver makes on the same input; so on a table without conflicts and a grammar without left recursion at most c x (number of tokens) times, c depending on the grammar only. On such a table it is never asked about an input that is accepted, whatever it would answer. A solver that does answer, always with a position after the one it was asked about, can be asked 2^k - 1 times about k + 1 tokens, although the table has no conflicts: what it skipped is parsed again by the symbols that follow.", "quantifier": "every grammar, hash order, solver and token sequence of the stated kind; every k for the exponential family", "why_tests_cant": "a bound over all inputs; the blow-up shows on no short input", "anchors": ["src/parser/recursive_descent_parser.rs::inner_parse_from_tokens_try_fix_productions", "src/parser/recursive_descent_parser.rs::inner_parse_from_tokens", "src/parser/recursive_descent_parser.rs::inner_parse_pop_states", "src/parser/syntax_error_solver.rs::SyntaxErrorSolver"]}
{"id": "C85", "title": "Useless productions do not matter without conflicts", "statement": "Take the grammar that keeps only the useful productions: those used in some derivation of a token string from the initial symbol. If the table of the whole grammar has no conflicts (and, for the useful part, repeated neighbours are harmless and the initial productions end in a terminal), the table of the useful part has none either and both parsers accept the same inputs with the same trees, whatever solvers they have. With conflicts a useless production can make the parser reject a sentence or never return on it.", "quantifier": "every grammar with its useful part, all solvers, hash orders and token sequences", "why_tests_cant": "compares two parsers on all inputs", "anchors": ["src/grammar/context_free_grammar.rs::ContextFreeGrammar::new", "src/parser/recursive_descent_parser_transitions.rs::inner_from", "src/parser/recursive_descent_parser.rs::parse_from_tokens"]}
{"id": "C86", "title": "A solver is first asked about the first offending token", "statement": "For a table without conflicts (repeated neighbours harmless, initial productions ending in a terminal), whenever parse_from_tokens asks the solver there are one position p and one symbol X such that the tokens before p can be continued with X, no sentence starts with the tokens up to and including p (or the input ends at p and is no sentence), and every call made while all calls before it were refused is for a symbol that starts at or before p, and its report, if there is one, ends at X; if all calls are refused, so does the Err returned; and the parse without solver returns an Err that ends at X.", "quantifier": "every such grammar, every solver, every token sequence, every call up to and including the first one answered", "why_tests_cant": "ranges over all grammars, inputs and solvers; says what no sentence starts with", "anchors": ["src/parser/recursive_descent_parser.rs::inner_parse_from_tokens_try_fix_productions", "src/parser/recursive_descent_parser.rs::inner_parse_from_tokens_production", "src/parser/recursive_descent_parser.rs::inner_parse_pop_states", "src/parser/syntax_error_solver.rs::SyntaxErrorSolver"]}
{"id": "C87", "title": "A parse that returns has not nested deeper than the calls it can make", "statement": "Whatever the grammar, left-recursive or not: a parse_from_tokens without solver that returns or panics has never had more than (productions + non-terminals) * tokens calls of itself active at once, and running it with its recursion cut off at that depth gives the same outcome; with a solver whose answers depend on the call only, twice that. A call stack deeper than that means the parse will never return. A solver that remembers earlier calls can make a returning parse nest arbitrarily deep on three tokens, even if each of its fixes advances.", "quantifier": "every grammar whose initial symbol has productions, every token sequence, every solver whose answers depend on the call only", "why_tests_cant": "a bound for all grammars and inputs, including those where parsing may hang; a test sees one stack depth", "anchors": ["src/parser/recursive_descent_parser.rs::inner_parse_from_tokens", "src/parser/recursive_descent_parser.rs::inner_parse_from_tokens_production", "src/parser/recursive_descent_parser.rs::inner_parse_pop_states", "src/parser/syntax_error_solver.rs::SyntaxErrorSolver"]}
{"id": "C88", "title": "Aliases work around the FOLLOW sets of repeated neighbours", "statement": "FOLLOW is incomplete where a production repeats a non-terminal, B B (C08), and sentences are lost (C22). Replacing every second B of such a pair by a fresh symbol B' with the only production B' -> B gives a grammar that the constructors accept, that repeats no neighbours, is LL(1) exactly if the original one is, and whose parse trees are those of the original grammar once every B' node is replaced by its child. For an LL(1) grammar without left recursion, with nullable alternatives declared last and the initial symbol ending in a terminal, the parser built from it accepts every input that starts with a sentence of the original grammar and returns its tree; with an end marker, it decides every input: Ok with the original grammar's tree up to the alias nodes, Err exactly if there is none.", "quantifier": "every grammar meeting the conditions, every choice of fresh alias symbols, every token sequence", "why_tests_cant": "a statement about all grammars and the transformation of each; a test sees one grammar rewritten", "anchors": ["src/grammar/first_follow_symbols.rs::inner_get_follow_symbols", "src/parser/recursive_descent_parser.rs::from_grammar", "src/parser/recursive_descent_parser.rs::parse_from_tokens"]}
{"id": "C89", "title": "Every reduced LL(1) grammar with an end marker can be prepared for the parser", "statement": "The parser loses sentences of some LL(1) grammars (C22). Two mechanical rewritings, which need nothing but the FIRST sets the library computes, repair all of them: move the productions whose output is nullable behind the others, and replace the second of two equal neighbouring non-terminals by a fresh alias. For every LL(1) grammar whose non-terminals are all reachable and productive and whose initial productions end in an end marker, the constructors accept the rewritten grammar, and parse_from_tokens of the parser without solver returns on every input ending in the marker: Ok with the parse tree of the original grammar, up to the alias nodes, if there is one, and Err exactly if there is none.", "quantifier": "every reduced LL(1) grammar with an end marker, every hash order, every choice of fresh aliases, every input ended by the marker", "why_tests_cant": "correctness of a recipe for all LL(1) grammars and all inputs", "anchors": ["src/grammar/first_follow_symbols.rs::get_first_symbols", "src/parser/recursive_descent_parser.rs::from_grammar", "src/parser/recursive_descent_parser.rs::parse_from_tokens"]}
{"id": "C90", "title": "A parse that runs for longer than a bound computed from the grammar and the input length will never return", "statement": "Whatever the grammar, left-recursive or not, and whatever FIRST and FOLLOW sets the parser was given: let a parse_from_tokens without solver, or with a solver whose answers depend on the call only, be cut off once calls of itself are nested 2 * (productions + non-terminals) * tokens deep or the loop over the symbols of one production has gone round (productions + 2) ^ (longest production) times. If it is cut off, the uncut parse never returns; if not, what it returned is the outcome of the uncut parse. So each such parse either ends or hangs, and one can compute which. The bound on the rounds of the loop holds for every solver; with a solver that remembers earlier calls the parse of three tokens can return later than any bound.", "quantifier": "every grammar, every FIRST and FOLLOW sets, every token sequence, every solver whose answers depend on the call only", "why_tests_cant": "that a parse never returns cannot be observed by any test run, and the bound holds for all grammars and inputs", "anchors": ["src/parser/recursive_descent_parser.rs::parse_from_tokens", "src/parser/recursive_descent_parser.rs::inner_parse_from_tokens", "src/parser/recursive_descent_parser.rs::inner_parse_from_tokens_production", "src/parser/recursive_descent_parser.rs::inner_parse_pop_states"]}
{"id": "C91", "title": "LL(1) grammars are parsed with work linear in the input, whatever conflicts the table has", "statement": "Let the grammar be LL(1) in the textbook sense, without production declared twice and without left recursion among the symbols the initial symbol leads to, and let the parser have no solver, with any FIRST and FOLLOW sets. Then parse_from_tokens ends - with a tree, an error or a panic - after at most a number of recursive calls per token that depends on the grammar only, although the parse table may have conflicts and the parser then backtracks. With one production declared twice, a grammar that is LL(1) in that sense can cost 2^k calls on k + 1 tokens.", "quantifier": "every LL(1) grammar without left recursion or duplicate productions, every FIRST and FOLLOW sets, every token sequence", "why_tests_cant": "the bound relates the work to the length of all inputs, for all LL(1) grammars, including those whose tables have conflicts", "anchors": ["src/parser/recursive_descent_parser.rs::parse_from_tokens", "src/parser/recursive_descent_parser.rs::inner_parse_from_tokens", "src/parser/recursive_descent_parser.rs::inner_parse_pop_states", "src/parser/recursive_descent_parser_transitions.rs::from"]}
{"id": "C92", "title": "Error reports and solver calls name only symbols that were expected where they failed", "statement": "If parse_from_tokens returns an error and no solver call was answered (in particular without solver), then every symbol the report names, at any depth, was expected where it is reported to have failed: there is a position q such that the initial symbol derives the tokens before q followed by that symbol and something more; a terminal named this way is not epsilon, has no failed productions and is not the token at q, and a non-terminal has a token at q. If every non-terminal that the initial symbol leads to has a sentence, the tokens before q are the beginning of a sentence, so no report points beyond the first token at which the input goes wrong. In the same way, until it answers for the first time, a solver is only asked about non-terminals that were expected at the position of the call, with failed productions of that non-terminal, and these name only symbols expected at or after it; what it would do on other calls makes no difference to any run, returning or not. All this whatever conflicts the table has and whatever FIRST and FOLLOW sets were supplied.", "quantifier": "every grammar whose initial symbol has productions, every FIRST and FOLLOW sets, every token sequence, every solver, every call before its first answer", "why_tests_cant": "ranges over all grammars, inputs, solvers and all nested positions of a report; expected means the existence of a derivation", "anchors": ["src/parser/recursive_descent_parser.rs::parse_from_tokens", "src/parser/recursive_descent_parser.rs::inner_parse_from_tokens", "src/parser/recursive_descent_parser.rs::inner_parse_pop_states", "src/parser/recursive_descent_parser.rs::inner_parse_from_tokens_try_fix_productions"]}
{"id": "C93", "title": "Grammars without epsilon productions get the textbook table and are parsed exactly without end marker", "statement": "If no production mentions epsilon, the transition table is the textbook one: the cell of A and a holds exactly the productions of A whose output derives a string starting with a, and, if no production is declared twice, the table has no conflicts exactly when the grammar is LL(1). Then, without solver and without any end marker, parse_from_tokens on a non-empty input returns Ok with a tree exactly if it is the parse tree of a prefix of the input, panics with an out-of-range access exactly if the input is cut short before a non-terminal (the initial symbol derives all the tokens followed by a non-terminal and something more), and, without left recursion, returns Err exactly otherwise. All conditions hold if every production starts with a terminal and no two productions of a symbol start with the same one (simple grammars), which can be read off the productions; parse_from_tokens then returns or panics on every input.", "quantifier": "every grammar without epsilon productions, every hash order, every non-empty token sequence", "why_tests_cant": "an equivalence between the outcome on every token sequence and the language, for a whole class of grammars", "anchors": ["src/parser/recursive_descent_parser.rs::parse_from_tokens", "src/parser/recursive_descent_parser_transitions.rs::from", "src/parser/recursive_descent_parser_transitions.rs::get_productions", "src/grammar/first_follow_symbols.rs::from"]}
{"id": "C94", "title": "With a conflict-free table the outcome on every input is determined by the language", "statement": "Let the table have no conflicts, repeated neighbours be harmless, the initial productions end in a terminal and every symbol the initial symbol leads to have a sentence. Then without solver parse_from_tokens ends on every non-empty input, and it returns Ok with a tree exactly if that is the parse tree of a prefix of the input, panics on an out-of-range access exactly if the input is cut short before a non-terminal (its tokens are terminals and the initial symbol derives all of them followed by a non-terminal and something more), and returns Err exactly in all other cases. An input cut short in this way makes it panic with every solver, without the solver being asked, and also without the conditions on the initial productions and on sentences.", "quantifier": "every such grammar, every hash order, every non-empty token sequence, for the panic every solver", "why_tests_cant": "an equivalence between the outcome on every token sequence and the language", "anchors": ["src/parser/recursive_descent_parser.rs::parse_from_tokens", "src/parser/recursive_descent_parser.rs::inner_parse_from_tokens_production_non_terminal", "src/parser/recursive_descent_parser.rs::inner_parse_from_tokens"]}
{"id": "C95", "title": "Supplied FIRST and FOLLOW sets that hold at least the textbook's give the same guarantees without conditions on repeated neighbours", "statement": "Let a parser be built with from_grammar_and_first_follow_symbols from sets that hold at least what FIRST and FOLLOW are by definition (C63 says when they do). Whatever the grammar, also with the same non-terminal twice in a row: if the table has no conflicts, the initial productions end in a terminal and every symbol the initial symbol leads to has a sentence, then parse_from_tokens ends on every non-empty input and returns Ok with a tree exactly if it is the parse tree of a prefix, panics on an out-of-range access exactly if the input is cut short before a non-terminal, and returns Err exactly otherwise; and the innermost symbol of an error is expected at the first token that no sentence has there. If the grammar is LL(1) and nullable alternatives come last, then, with or without conflicts in the table, every sentence that is a prefix of the input has exactly one parse tree, which is returned.", "quantifier": "every grammar and all such sets, every hash order, every token sequence", "why_tests_cant": "equivalences with the language for every token sequence and every choice of sets", "anchors": ["src/parser/recursive_descent_parser.rs::from_grammar_and_first_follow_symbols", "src/parser/recursive_descent_parser.rs::parse_from_tokens", "src/grammar/first_follow_symbols.rs::new"]}
{"id": "C96", "title": "A tree that takes the first candidate everywhere is returned, whatever the conflicts and the solver", "statement": "Whatever conflicts the table has: if a prefix of the input has a parse tree in which every node uses the first of the declared candidates for its symbol and the type of the token it starts at, then parse_from_tokens returns Ok with that tree, without asking the solver, if there is one. There is at most one such tree; finding it takes exactly one call of the recursive function per node of a non-terminal; and it only depends on the tokens of the prefix and the one after it, so the result stays the same when later tokens change. If no cell has two candidates, Ok is returned with such trees only. So declaring [E -> else S] before [E -> epsilon] ties every else to the nearest if; without the factoring, for [S -> if S else S | if S | x], the else goes to the first if.", "quantifier": "every grammar, hash order, solver and token sequence", "why_tests_cant": "for every grammar, with any conflicts, every solver and every continuation of the input", "anchors": ["src/parser/recursive_descent_parser.rs::parse_from_tokens", "src/parser/recursive_descent_parser.rs::inner_parse_from_tokens_try_parse_productions", "src/parser/recursive_descent_parser.rs::inner_parse_from_tokens_production"]}
{"id": "C97", "title": "Without an end marker exactly the sentences that do not end in an empty non-terminal are accepted at the end of the input", "statement": "Every non-terminal of a returned tree has a token to look at where it starts, and uses one of the candidates for that token, whatever the conflicts and the solver. So parse_from_tokens never returns a tree of the whole input that ends in a non-terminal without tokens. If the table has no conflicts and repeated neighbours are harmless, every tree of a prefix of the input that does not end like that is returned, whatever comes after it and whatever the solver, also if the initial productions do not end in a terminal; and a sentence whose tree does end like that makes parse_from_tokens panic with an out-of-range access, although it is a sentence: for [S -> a B], [B -> b | epsilon] the input [a b] gives a tree, the input [a] panics. No tree ends like that if the initial productions end in a terminal or no production mentions epsilon.", "quantifier": "every grammar, hash order, solver and token sequence", "why_tests_cant": "for every grammar without end marker and every sentence", "anchors": ["src/parser/recursive_descent_parser.rs::parse_from_tokens", "src/parser/recursive_descent_parser.rs::inner_parse_from_tokens_production", "src/parser/recursive_descent_parser.rs::inner_parse_from_tokens_production_non_terminal"]}
{"id": "C98", "title": "Nothing after the first offending token matters", "statement": "Let every symbol the initial symbol leads to have a sentence, and let the parser have no solver. If no sentence begins with the tokens u t, then parse_from_tokens gives the same outcome on every input that begins with u t: the same tree (of a shorter prefix), the same error report, or it never returns; it does not panic. So it never looks beyond the first token with which no sentence goes on, whatever conflicts the table has, whatever FIRST and FOLLOW sets were supplied, and however much it backtracks. If the table has no conflicts, repeated neighbours are harmless, the initial productions end in a terminal and no prefix of u is a sentence, there is one error report for u t that is returned whatever comes after.", "quantifier": "every such grammar, all supplied or computed sets, every token sequence and continuation", "why_tests_cant": "for every grammar, every offending prefix and all continuations", "anchors": ["src/parser/recursive_descent_parser.rs::parse_from_tokens", "src/parser/recursive_descent_parser.rs::inner_parse_from_tokens_production", "src/parser/recursive_descent_parser.rs::inner_parse_from_tokens_try_parse_productions"]}
{"id": "C99", "title": "A solver is not asked about what needs no second thoughts", "statement": "(1) If the tree of the input can be built by taking, symbol after symbol and none of them twice, the single candidate production, and by ordered choice with backtracking below symbols with several candidates, parse_from_tokens returns that tree whatever solver is installed, and never calls the solver. (2) So, if where a symbol begins determines where it ends (for symbols that stand before others in a production; e.g. when no sentence of such a symbol continues another), installing a solver never changes an accepted input's tree and the solver is not called on it, whatever conflicts the table has; if moreover sentences end in an end marker and there is no left recursion, then with any solver exactly the sentences are answered Ok, without a call and with a tree of the whole input. (3) The same for every LL(1) grammar whose nullable alternatives stand last (harmless repeats, no left recursion, initial productions ending in a terminal): with any solver, Ok is returned without a call exactly with the trees of prefixes of the input. (4) If a parser with a solver returns without having called it, the result is Ok, and every other solver, or none, would have given it too.", "quantifier": "every such grammar, every solver (stateful ones too), every token sequence", "why_tests_cant": "ranges over all solvers, which are arbitrary user callbacks, and all grammars and inputs; C31 and C32 show that in general a solver does change accepted inputs", "anchors": ["src/parser/recursive_descent_parser.rs::parse_from_tokens", "src/parser/recursive_descent_parser.rs::inner_parse_from_tokens_try_fix_productions", "src/parser/recursive_descent_parser.rs::inner_parse_from_tokens_production", "src/parser/recursive_descent_parser.rs::inner_parse_pop_states"]}
{"id": "C100", "title": "Every LL(1) grammar can be prepared so that the parser decides it exactly", "statement": "Take any grammar that the constructor accepts, that is LL(1) in the textbook sense (no conflicts in any column, that of the end of the input included) and has at least one sentence; it need not be reduced, have an end marker, or avoid the constructs the parser trips over. Drop the useless productions, which can be computed from the grammar by two closures (trimmed), add a new initial symbol T -> S $ with an unused end marker, move nullable alternatives last according to the FIRST sets the library computes, and alias repeated neighbours. The constructors accept the result, and on every input without the marker, followed by the marker, parse_from_tokens without solver returns Ok with the parse tree of the original grammar, below the new root and up to the alias nodes, if there is one, and Err exactly if there is none. With any solver, Ok is returned exactly for the sentences, with the same trees, and without a call of the solver. Adding the end marker makes a grammar LL(1) for this parser's kind of grammar exactly if it was LL(1) up to the end of the input before.", "quantifier": "every LL(1) grammar with a sentence, every hash order, every choice of unused symbols, every input, every solver", "why_tests_cant": "for all LL(1) grammars and all inputs; the parser as it stands loses sentences of some of them (C22)", "anchors": ["src/parser/recursive_descent_parser.rs::parse_from_tokens", "src/parser/recursive_descent_parser.rs::from_grammar", "src/grammar/context_free_grammar.rs::new"]}
{"id": "C101", "title": "A grammar assembled from independent grammars parses each input as the part its first token belongs to", "statement": "Put a new symbol S -> S1 | S2 | ... over grammars that share at most terminals (no grammar has productions for a symbol written in another). If the first token can start a sentence of Si, and no other Sj can start with it or be empty, then the assembled parser returns exactly what the parser built for grammar i alone returns on the same tokens, with the same solver calls in the same order, placed under the new symbol: a tree below a new root, a fixed symbol inside a fixed production, and an error inside an error, about which the solver is asked once more. Panics and non-termination are the same too, and nothing about the other grammars matters: they may be ambiguous or left recursive. A first token no part can start with gives an Err for S without candidates.", "quantifier": "every list of independent grammars, every part, every solver, every hash order, every token list", "why_tests_cant": "for all grammars, solvers and inputs; the tables are computed from FOLLOW sets of the whole grammar, so an unrelated production can in general change results (C73)", "anchors": ["src/parser/recursive_descent_parser.rs::parse_from_tokens", "src/parser/recursive_descent_parser.rs::inner_parse_from_tokens_try_fix_productions", "src/parser/recursive_descent_parser_transitions.rs::from"]}
{"id": "C102", "title": "Nothing after the end marker is read", "statement": "Let the grammar have an end marker (a terminal that ends every production of the initial symbol and is written nowhere else; the initial symbol is written in no output), and let the parser have no solver. Then what stands after an end marker in the input has no influence: parse_from_tokens gives the same tree, the same error report, or never returns, on every input that begins with u $, whatever follows; and it does not panic. A tree is for the tokens up to the first end marker. This holds for every grammar and table, with conflicts, left recursion, backtracking and supplied FIRST and FOLLOW sets. So an accepted input stays accepted, with the same tree, whatever is appended.", "quantifier": "every grammar with an end marker, all supplied or computed sets, every token sequence and continuation", "why_tests_cant": "for every grammar, every input and all continuations; without an end marker a single appended token can change the result (C38)", "anchors": ["src/parser/recursive_descent_parser.rs::parse_from_tokens", "src/parser/recursive_descent_parser.rs::inner_parse_from_tokens_production", "src/parser/recursive_descent_parser.rs::inner_parse_from_tokens_try_parse_productions"]}
{"id": "C103", "title": "Exactly which LL(1) grammars are parsed exactly", "statement": "Let the grammar be LL(1), let every symbol the initial one leads to derive some token sequence, let every production of the initial symbol end in a terminal, and let the parser have no solver; FIRST and FOLLOW sets may be computed or supplied. Then every sentence of the grammar is parsed to its tree if and only if (1) every production the textbook puts into a cell of the LL(1) table is one of the candidates there, for the non-terminals the initial symbol leads to, and (2) wherever a production uses a non-terminal A, and on some look-ahead token a candidate of A that would end on nothing stands before the production the textbook puts there, what follows A in that production cannot end on nothing as well. With sets computed by the crate, and repeated symbols harmless (C08), (1) always holds and (2) alone decides. If they hold, a sentence is parsed to its tree whatever is appended to it, and with an end marker every input ended by it is decided: a tree exactly when it is a sentence, otherwise an error report. With an end marker, being a decision procedure is equivalent to (1) and (2). Without an end marker they are equivalent to every non-empty input having the right outcome: the tree of the sentence it begins with, or a panic when it breaks off where a non-terminal is expected, or otherwise an error report.", "quantifier": "every LL(1) grammar whose symbols all derive something, all supplied or computed sets, every token sequence", "why_tests_cant": "an equivalence between a condition on the grammar's table and the behaviour on infinitely many inputs; a test suite can pass although another sentence is rejected", "anchors": ["src/parser/recursive_descent_parser.rs::inner_parse_from_tokens_try_parse_productions", "src/parser/recursive_descent_parser.rs::inner_parse_from_tokens_production", "src/parser/recursive_descent_parser_transitions.rs::from"]}
{"id": "C104", "title": "Whether a grammar is LL(1), and whether it is parsed exactly, can be computed", "statement": "From the FIRST and FOLLOW sets and the table the crate computes one can compute two answers. (1) is_ll1: for a grammar whose non-terminals are all reachable and in which repeated symbols are harmless (C08), the answer is yes exactly when the grammar is LL(1) by the textbook. (2) is_exact: for an LL(1) grammar whose non-terminals are all reachable and all derive a token sequence, and whose initial productions end in a terminal, the answer is yes exactly when a parser without solver parses every sentence to its tree. Two positive answers are enough, also when some symbols are unreachable: every sentence is parsed to its tree whatever is appended to it.", "quantifier": "every grammar as described, every hash order used in computing the sets, every sentence", "why_tests_cant": "a finite computation decides the behaviour on infinitely many sentences; no finite set of parsed inputs does", "anchors": ["src/grammar/first_follow_symbols.rs::from", "src/parser/recursive_descent_parser_transitions.rs::from", "src/parser/recursive_descent_parser.rs::inner_parse_from_tokens_try_parse_productions"]}
{"id": "C105", "title": "Error reports reach the first offending token, also with conflicts", "statement": "Let no sentence of a symbol that stands before others continue another sentence of it, let repeated neighbours be harmless (or the sets supplied hold at least the textbook's), initial productions end in a terminal, and every symbol have a sentence; the table may have conflicts. If the parser, without solver or with one that refuses every call of the parse, returns Err, then the report names, at some depth, a symbol that was looked for, and expected, at the first offending token: the tokens before it begin a sentence, with it none does (or the input ends there and is no sentence). Everything the report names was expected where it was looked for, and nothing it names lies behind that token. Without the condition this is false, even of LL(1) grammars with nullable alternatives last: [S -> A c $ | d X b $; A -> b e | X; X -> epsilon] on [b c $] reports only S and c at position 0, although b is right and e is missing.", "quantifier": "every grammar as described, every rejected input", "why_tests_cant": "about what is missing from reports, for every input and every way of backtracking; the failing grammar shows that a report can lose the interesting failure", "anchors": ["src/parser/recursive_descent_parser.rs::inner_parse_from_tokens_try_parse_productions", "src/parser/recursive_descent_parser.rs::inner_parse_from_tokens_production", "src/parser/recursive_descent_parser.rs::inner_parse_pop_states", "src/parser/failed_symbol.rs::FailedSymbol"]}
{"id": "C106", "title": "Where extents are fixed the parser is a parsing expression grammar", "statement": "Let no sentence of a symbol that stands before others continue another sentence of it (or: whatever the table guides for such a symbol from a position ends at one place), or let the table have no conflicts. Then backtracking into siblings never matters: the parser answers with the result of a parsing expression grammar (prioritised choice without second thoughts, over the candidates of the table) for the initial symbol at the start - the same tree, or failure. Such a result is unique for each symbol and position and depends only on the tokens from that position on. Without conflicts the parser returns a tree, or an error, exactly when the parsing expression grammar gives that tree, or fails. With the end marker discipline and without left recursion the result always exists and the parser returns it; a tree it returns with every solver, unasked. Without the condition this is false: S -> X $, X -> a | a b on [a b $] is accepted by the parser and rejected by the parsing expression grammar.", "quantifier": "every grammar as described, every input, every solver for accepted inputs", "why_tests_cant": "equivalence with another kind of parser for every grammar and input; the difference shows only in second attempts", "anchors": ["src/parser/recursive_descent_parser.rs::inner_parse_from_tokens_try_parse_productions", "src/parser/recursive_descent_parser.rs::inner_parse_from_tokens_production", "src/parser/recursive_descent_parser.rs::inner_parse_pop_states"]}
{"id": "C107", "title": "Grammars that are LL(1) once common beginnings are factored out need no factoring", "statement": "Suppose that wherever two alternatives of a symbol part ways (after their longest common beginning) the next token tells which one it is, and that an alternative that can end where another goes on is declared after it. Such grammars need not be LL(1): tables have conflicts wherever alternatives start alike. With an end marker, without left recursion and with harmless repeats, the parser decides every token list: it returns the parse tree, of which there is at most one, and an error exactly when there is none; with any solver the sentences are exactly what is accepted, and the solver is not asked on them; with any adequate FIRST and FOLLOW sets supplied by the user the same holds without the condition on repeats. Every LL(1) grammar with productive symbols is of this kind, provided its nullable alternatives come last. Where symbols are productive, such grammars cannot be left recursive. Both conditions can be computed from the FIRST and FOLLOW sets of the crate. The work, unlike the result, does profit from factoring: S -> a S b | a S c | d takes 2^k calls. The order is needed: X -> a | a b below Y -> X, S -> Y c $ rejects the sentence [a b c $].", "quantifier": "every grammar as described, every input with an end marker at its end, every solver, every adequate pair of FIRST and FOLLOW sets", "why_tests_cant": "completeness of a backtracking parser for a class of grammars and all their inputs", "anchors": ["src/parser/recursive_descent_parser.rs::inner_parse_from_tokens_try_parse_productions", "src/parser/recursive_descent_parser.rs::inner_parse_from_tokens_production", "src/parser/recursive_descent_parser.rs::inner_parse_pop_states", "src/parser/recursive_descent_parser_transitions.rs::from"]}
{"id": "C108", "title": "Grammars whose earlier alternatives never fit, and LL(k) grammars", "statement": "Suppose that, wherever an alternative of a symbol, with what comes after it in some form of the initial symbol, makes a string of tokens, no different alternative of the symbol declared before it makes a beginning of that string. With an end marker, without left recursion and with harmless repeats the parser then decides every token list: it returns a parse tree, or an error exactly when there is none. With any solver the sentences are exactly what is accepted, and the solver is not asked on them; with any adequate FIRST and FOLLOW sets supplied by the user the same holds without the condition on repeats. Such a grammar is unambiguous and, with productive symbols, not left recursive. An LL(k) grammar is unambiguous in whatever order its alternatives are declared. An LL(k) grammar is LL(k') for every larger k'; with an end marker LL(1) grammars are those that are LL(k) for k = 1 (where all symbols are productive and reachable). Every LL(k) grammar with productive symbols, for whatever k, is of this kind as soon as alternatives whose strings of fewer than k tokens begin what another alternative makes are declared after it: the crate's single token of lookahead suffices for it. The grammars of C107, and so the LL(1) grammars with their nullable alternatives last, are of this kind too. Both conditions can be computed, given tables of the first k tokens of symbols and of what follows them. The condition is sufficient, not necessary: S -> X $, X -> a | a b violates it and loses no sentence. The order is needed: S -> Y c $, Y -> X, X -> a | a b is LL(2), and its sentence [a b c $] is rejected.", "quantifier": "every grammar as described, every k, every input with an end marker at its end, every solver, every adequate pair of FIRST and FOLLOW sets", "why_tests_cant": "completeness of a backtracking parser for classes of grammars and all their inputs", "anchors": ["src/parser/recursive_descent_parser.rs::inner_parse_from_tokens_try_parse_productions", "src/parser/recursive_descent_parser.rs::inner_parse_from_tokens_production", "src/parser/recursive_descent_parser.rs::inner_parse_pop_states", "src/parser/recursive_descent_parser_transitions.rs::from"]}
