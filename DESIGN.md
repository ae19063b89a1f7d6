# Formal model of antlr_syntax (Rust) in Coq 8.16

## 1. What is modelled

| Coq file (`rocq/theories`) | Rust source |
|---|---|
| `Base.v` | language/stdlib: `Option::unwrap`, panics, `HashMap`, `HashSet`, arbitrary hash iteration order |
| `Grammar.v` | `src/grammar/context_free_grammar_production.rs`, `src/grammar/context_free_grammar.rs` (all functions) |
| `FirstFollow.v` | `src/grammar/first_follow_symbols.rs` (all functions, incl. the `RefCell` discipline) |
| `Transitions.v` | `src/parser/recursive_descent_parser_transitions.rs` (all functions) |
| `Parser.v` | `src/parser/recursive_descent_parser.rs` (all functions), `src/parser/syntax_error_solver.rs` and the data types of `src/token`, `src/ast`, `src/parser` |
| `Session.v` | `iterator_to_vec` and `parse_from_tokens` of `src/parser/recursive_descent_parser.rs` on an arbitrary iterator; sequences of parses with one parser |
| `Machine.v` | the functions of `recursive_descent_parser.rs` and `first_follow_symbols.rs` that use vectors, index loops or `usize` arithmetic, transcribed once more literally, for a word size (C79) |
| `Resume.v` | `recursive_descent_parser.rs` once more, as a computation that stops at every solver call, and programs that run several of them (C80) |

Every definition cites file and lines. Files without code:

| Coq file | Content |
|---|---|
| `Spec.v` | derivations, FIRST/FOLLOW, LL(1), parse trees, left recursion, end-of-input discipline |
| `LexSpec.v`, `ReportSpec.v`, `ChoiceSpec.v`, `ContractSpec.v`, `GuidedSpec.v`, `PrefixSpec.v`, `RenameSpec.v`, `StallSpec.v`, `FollowSpec.v`, `RepeatSpec.v`, `PastSpec.v`, `DepthSpec.v`, `WorkSpec.v`, `CountSpec.v`, `ForeverSpec.v`, `LoopSpec.v`, `ProductiveSpec.v`, `RecoverSpec.v`, `StopSpec.v`, `SuppliedSpec.v`, `SessionSpec.v`, `KeySpec.v`, `FitSpec.v`, `FactorSpec.v`, `PegSpec.v`, `ReachSpec.v`, `ExactSpec.v`, `AssembleSpec.v`, `WrapSpec.v`, `QuietSpec.v`, `EndSpec.v`, `FirstChoiceSpec.v`, `EpsFreeSpec.v`, `ExpectSpec.v`, `EffortSpec.v`, `RecipeSpec.v`, `SplitSpec.v`, `UsefulSpec.v`, `AccountSpec.v`, `LanguageSpec.v`, `ResumeSpec.v`, `EarlySpec.v`, `StartSpec.v`, `ApartSpec.v`, `SizeSpec.v`, `LastSpec.v` | small vocabularies for lexeme maps, reports/fixes, ordered choice, solver transcripts, determined extents, viable prefixes, renamings, stalling answers, FOLLOW rules and growing grammars, repeated productions, reading past the end, recursion depth, calls made (without and with a solver), infinite descents, loops, productive symbols, ordered choice with reports and a solver, the ways it stops, supplied FIRST/FOLLOW sets, iterators and sessions, equality by keys, LL(k), earlier alternatives that never fit, and the check from k-token tables, LL(1) once common beginnings are factored out, and the check for it, parsing expression grammars, where the symbols a report names were looked for, computing whether a grammar is LL(1) and whether it is parsed exactly, assembling grammars, independence, a result placed under a new symbol, unused symbols, grammars wrapped with an end marker, LL(1) up to the end of the input, useful productions computed, settled trees (no second thoughts on the single path), fixed extents, prefix-free symbols, trees that end in a node with children but without tokens, trees that use the first candidate at every node, grammars without epsilon productions, simple grammars, what can come at a place of the input, and what reports and calls may name, the calls per token of LL(1) grammars, preparing an LL(1) grammar for the parser, rewriting a grammar without repeated neighbours (C88), useful productions (C85), lexemes of trees and fixed derivations, accounting and conforming solvers, repaired derivations, sentences, equal languages, acceptance, the conditions for exact parsers, parses run together compared with parses run alone: own calls, same replies, independence, the order of declaration on parse trees (C78), parts of a tree and where they start, productions apart from a grammar, sizes of trees and reports, nullable alternatives last, when candidates that end on nothing do harm |
| `*Facts.v`, `Parser<X>.v`, `LL1Check.v` | proofs only; nothing there is needed to read a statement |
| `ExampleTools.v`, `Examples.v` | concrete grammars that meet the hypotheses |
| `SpecTests.v` | the repository's 29 unit tests replayed on the model (tests of the model, not proofs) |
| `Prop*.v` | the theorems `Cnn_*`, each followed by examples meeting its hypotheses and by `Print Assumptions` |

### Modelling decisions

* **Panics** are values (`Panicked p`), one constructor per kind of panic site. Which panics can occur is a theorem (C01, C04, C10, C17), not an assumption.
* **Divergence**: `while`/recursion run on explicit fuel; `OutOfFuel` is not a result. "Returns r"
  is `exists n, forall fuel >= n, run fuel = r`; "never returns" is `forall fuel, run fuel = OutOfFuel`.
* **Hash iteration order** is an arbitrary permutation per iteration event (`hash_order`); all theorems quantify over it.
* **RefCell**: holding `borrow_mut` of a set and borrowing it again is `Panicked PanicBorrow`.
* **Solver** (`SyntaxErrorSolver`): an arbitrary function of the call *and of all earlier calls*
  of the parse, so interior mutability is covered. Its method may return (`Reply`), panic (`ReplyPanics`, which
  becomes the outcome `Panicked PanicSolver`) or never return (`ReplyNever`, which makes the parse never return).
* **`usize`** is `nat`. The only subtractions are modelled with their underflow panic; positions are only
  incremented past an existing token or supplied by the solver and never added to afterwards, so no overflow
  can occur on a machine that can hold the vector.
* **`Vec`** used as a stack is a list, last element first; iterators are the list of what they have left.
* **`Rc`/`Box`/references** are dropped: the code never mutates through them after sharing, except the
  `RefCell` sets of FIRST/FOLLOW, which are modelled.

### Simplifications and what is not modelled

* The functions of the model take any boolean equality on symbols (`EqImpl`: the user's `Eq`). Outside C68 theorems are about symbol types whose `Eq` is identity (`EqDec`); C68 reduces symbol types with a coarser lawful `Eq` to that case (`Hash` consistent with `Eq`). `Clone` of symbols and lexemes is the identity.
* Outside C66 and C67 the token iterator passed to `parse_from_tokens` is the finite list it yields; C66 reduces arbitrary iterators to that case. An iterator is what its successive calls of `next` do (default `for_each`).
* `src/parser/fix_gap.rs` is a plain data type without behaviour; it appears as the constructor `FPartGap`. Trivial constructors (`new`) are the constructors of the records.
* `usize` is unbounded in Parser.v and FirstFollow.v; C79 proves that machine integers make no difference (Machine.v).
* Memory, stack size (unbounded recursion is divergence, in Rust a stack overflow), time, `Drop` and lifetimes are not modelled.

## 2. Properties and how they are proved

See `properties.jsonl` for the statements. (R) = the full statement is false of the code: `Cnn_full_statement_refuted` gives
a witness, and a positive theorem with the suffix `_partial` is proved beside it.

* C01-C03 grammar: induction over the production list; iteration order removed by permutation lemmas.
* C04 termination of `converge`: total set size is bounded by |non-terminals|*|terminals| and each updating round increases it; unwraps/borrows by an invariant on the key set.
* C05 FIRST: soundness is a round invariant (membership implies a derivation); completeness from closure of the map when a round reports no update, then induction on derivations.
* C06 hygiene: part of the invariants.
* C07 FOLLOW soundness: round invariant. C08 completeness (R): `current_symbol.ne(next_symbol)` skips `B B`; proved exactly when FIRST(B) reaches FOLLOW(B) at each `B B`; for symbols that derive the empty word, exactly when `repeats_harmless` (FollowSpec) holds: by reverse induction on derivations, whatever follows B follows the nullable symbols that end B (`FollowRepeat.v`). C12, C22, C23, C25, C40, C42, C43, C49 assume `repeats_harmless` only.
* C09 hash order: FIRST/FOLLOW are characterised order-free, cells are then equal as lists, and the parser only reads cells.
* C10/C11 table: exact description of the fold that fills the cells.
* C12 coverage of Algorithm 4.31 (R via C08; proved under the C08 condition, and an exact condition: only entries of nullable productions can be missing); C13 (R: FOLLOW of the first output symbol is used instead of FOLLOW of the input).
* C14/C15/C37/C41 soundness: big-step relation of the parser runs (`ParserRel`), mutual induction.
* C16 (R: prefix acceptance); proved under the end-of-input discipline. C17 (R: truncated input); "the only possible panics are reading past the end and panics of the solver" and "no panic under the end-of-input discipline" proved by fuel induction.
* C18 direct. C19 termination: well-founded left-corner order and a positional-number measure for the backtracking stack. C20 induction on fuel. C21 (R: a solver that does not advance); proved for solvers for which stalling answers are well-founded on the input (`StallSpec`), by an outer induction on that order around the C19 argument.
* C22 (R, two witnesses; `C22_in_order_partial` assumes only that no candidate that vanishes at the lookahead stands before the textbook production of its cell, LastSpec.v, any solver: induction over the valid tree, an earlier candidate that succeeds would derive the lookahead or vanish); C23 proved by induction on the tree; C40 combines C14, C16, C17, C19, C23.
* C24 refinement of the explicit-stack loop to an inductive ordered-choice semantics (`ChoiceSpec`); runs that index past the last token have their own big-step relation (`ParserPast`) and are matched with `PastSpec`. C25 (R: choices inside a parsed sibling are final), C42, C43: completeness of ordered choice when the extents of symbols with a right sibling are determined (`GuidedSpec`, `ParserGuided`).
* C26 induction over runs; C27 (R) and partial version.
* C28 naturality in the lexeme type (simulation of two parsers, `ParserSim`). C29, C30, C33, C35 invariants over runs.
* C31, C32, C34, C38 (R) with versions for conflict-free tables.
* C36, C39 direct.
* C44 and the `_in_every_run` theorems of C33/C34: the solver is made to panic at an arbitrary call, so that properties of returning *and* panicking runs bound the calls of all runs (`ParserContract`). C45: off the single path the run equals the solver-less one (`ParserOff`). C46: induction over runs. C47 (R), conflict-free version by induction over runs (`ParserEscalate`): the calls made while a production fails are followed, but for calls without reports, by the call for that production with the same reports.
* C48: fuel induction on panicking runs, with the parsed part of every production on the stack deriving the tokens read (`ParserTrunc`). C49: a run that fails at p does not depend on the tokens after p (`ParserErrPos`); with C23, a sentence with the same first p+1 tokens would be accepted.
* C50: simulation of the two parsers step by step under the renaming (`ParserRename`); the table cells are compared through their order-free characterisation by FIRST/FOLLOW (`RenameFacts`). C51: the same with the identity renaming, the production lists agreeing symbol by symbol.
* C52: the FOLLOW fixpoint against inductive rules (`FollowSpec`), no derivations involved. C53: monotonicity of those rules, of FIRST and of selection; cells compared as filtered lists. C54: in `PastSpec`/`ChoiceSpec` a candidate that was already spent at a position can be skipped (determinism); the table cells of the two grammars agree up to repeats; then C24.
* C55: `DepthSpec` re-ties the recursive functions with separate bounds for nesting and for loops; calls nested at one position go down the acyclic left-corner order (so at most one per non-terminal), and otherwise the position advances. A family of inputs attains the bound.
* C56: `WorkSpec` re-ties the recursive function with a budget of calls. On a conflict-free table a success costs exactly the inner nodes of its tree, trees have linearly many inner nodes when nothing is left recursive (`WorkFacts.tree_size`), and a failure costs no more; the two parses are related step by step (`ParserWork.sym_work_all`). A grammar with two candidates shows the cost can be exponential otherwise; `ParserExp.exp_sym` bounds it for every table: the candidates left in the states of a production are a potential that every retry lowers, and the depth of the recursion is that of C55.
* C57: left recursion is a cycle of left corners. Take a symbol on the cycle with a shortest derivation of a token string: its first production differs from the one that continues the cycle (`LeftRecFacts.cycle_infinite`), yet both are candidates for one lookahead: either a token both can start with, or one that follows the symbol (the final terminal makes something follow every symbol). Done once for abstract FOLLOW/candidate relations and instantiated with the textbook ones (LL(1)) and the code's (`conflict_free`). Two grammars show the conditions are needed.
* C58: `ForeverSpec` is the coinductive counterpart of `ChoiceSpec`/`PastSpec`; determinism of ordered choice excludes it together with an outcome. Conversely, an evaluator cut off at a depth (`LoopFacts.choose_n`) ends, or has a chain of nested calls longer than the number of possible calls (symbol, position, suffix of a candidate list), so one repeats; a repeated call gives an infinite descent. No classical axiom is needed.
* C59: `RecoverSpec` gives a big-step semantics of ordered choice with reports, solver calls (with the history of calls threaded through) and fixes, by recursion on the symbols of a production: no stack, no loop. `ParserRecover.v` proves it equivalent to the relational form of the loop (`ParserRel`) in both directions, with an invariant on the stack of states.
* C60: `StopSpec` describes the runs of that semantics that stop on the way (lookahead beyond the last token, panic of the solver, solver that never answers, nesting deeper than n). `ParserStop.v` relates panicking runs of the model to a relation on the loop, `ParserStopRecover.v` that relation to `StopSpec`; C17 excludes other panics.
* C61: `StopFacts.v` proves that the semantics is functional, that what returns or stops for a reason other than depth stops for no other reason beyond some depth, and that for every n it returns, or stops for such a reason, or nests n deep. With C59 and C60 this characterises divergence constructively.
* Properties of parses that do not depend on what FIRST and FOLLOW are (C14-C17, C19-C21, C24, C26, C27, C29, C33-C36, C38, C46-C48, C55, C56, C58-C61) are proved for `constructed_parser` (Spec.v): parsers of `from_grammar`, `from_grammar_and_solver`, or `from_grammar_and_first_follow_symbols` with any sets.
* C62: the loops that fill the table only fail at `unwrap`; which unwraps fail is read off the loop invariants of C11 (`SuppliedFacts.v`). C63: what C23, C40, C42, C43 use of the table is that it covers (`covering` in SuppliedSpec); sets closed under the textbook rules contain the semantic FIRST/FOLLOW by induction on derivations, hence cover. C64: cells as filtered lists; parses only read cells. C65: induction over runs of a conflict-free parser (`ParserCF.grow_all`): a successful run never meets an empty cell, and non-empty cells are unchanged; C53 gives the cells.
* C66: induction over the draining loop. C67: simulation (`ParserSim`) between a parse that starts with a non-empty history of solver calls and one whose solver is shifted by that history; then induction over the session.
* C68: every function of the model commutes with taking keys, from the hash collections up (`KeyFacts.v`); the parser by the simulation of C50 (`ParserRename.v`), which only needs that keys are compared alike.
* C69: by mutual induction over the ordered-choice derivation (`ChoiceSpec.v`), following the tree (`LastFacts.v`): a wrong candidate before the right one is not nullable, so its success, or its reading past the end, would put it in the textbook cell of the lookahead; C19 gives that the attempts end.
* C70: two textbook entries of one cell are both in the table's cell (C12), which holds one; uniqueness of trees from C23. Counterexample with `B B`.
* C71: a tree without left recursion has linearly many inner nodes (`WorkFacts.tree_size`) and nests a symbol at most (non-terminals) times per token (`SizeFacts.tree_height`).
* C72: by induction on runs (`SizeFacts.report_narrow`): one level of the report per level of the recursion (as in C55), one branch per candidate. The exponential family is computed for every k.
* C73: two parsers that agree on the cells and symbols of a grammar run identically (`ApartFacts.agree_parse`, induction on fuel with the stack invariant of C14); FIRST, FOLLOW and cells do not see productions without a common non-terminal (`apart_cells`). The full statement (any unreachable production) is refuted by computation; its conflict-free case follows from C65, C53 and C23, trees of the initial symbol using reachable productions only. For LL(1) grammars with nullable alternatives last C69 and C99 are proved from their conditions where the initial symbol reaches (`reachable_last_any_solver`), and the reachable part gives those of the whole grammar (`PropUnreached`).
* C74: FIRST, FOLLOW and cells are characterised by the productions only (`ffs_from_exact`, `transitions_cells`, `selectsb_spec`), so both grammars have the same; `parse_ext` carries it to parses.
* C75: the ordered-choice relation of C24 shifted along the input (`StartFacts.shift_all`), every inner node of a chosen tree is the result of a choice at its position, or a retry of one (`parts_all`), same cells by C74. The full statement is refuted by computation. (In-order version for conflicts: PropLastParts.v.)
* C76: in the ordered-choice relation of C24, a success without alternatives has read nothing beyond the position where it ends, and nothing at it when the last symbol is a terminal (`LocalFacts.local_all`, mutual induction). (In-order version: PropLastParts.v.)
* C77: replacing a part of a valid tree by a tree for the same symbol gives a valid tree (`replaced_tree`, induction on the path to the part, C14 for the trees); C23 says it is the one returned. (In-order version: PropLastParts.v.)
* C78: the order `earlier` on trees is defined in EarlySpec.v (first difference, top down, left to right); candidates are listed in declaration order (C11), and by induction on the choice relation of C24 every candidate skipped has no tree with the same continuation (as in C42), so any other tree differs first at a later declared production.
* C79: Machine.v transcribes the functions that use vectors, index loops or usize arithmetic literally (push/pop at the end, the reversed vector and its final reverse, `for i in a..b`, `len() - 1`, `+ 1`), parametrised by the word size and the overflow behaviour; equality with Parser.v / FirstFollow.v by induction on the fuel of the loops, with bounds from the vector lengths. This also discharges the simplifications those files make (stack order, suffixes).
* C80: Resume.v writes the parser as a computation (`Ended` / `Waits call resume`) and programs as lists of such computations with a small-step relation in which any waiting parse makes its next call to the shared solver; ResumeFacts.v proves by induction that running a computation with a solver is parse_from_tokens, the invariant `run p start [] = run p now (own calls)` of every schedule, and well-foundedness of the steps (nested accessibility on the list). Not modelled: memory-model effects inside the user's solver.
* C81: the terminals do not interact in a round, so the loop runs as long as the slowest of them; the nullable non-terminals settle within N rounds, and after that the set of non-terminals with a given terminal in FIRST grows in every round until it is stable (RoundFacts.v). The sizes follow from C06 and C11.
* C82: C23/C69 make the answer to an input the tree of its (unique) prefix that is a sentence, C15 gives the converse; the direction from equal acceptance to equal languages uses that the language is prefix-free.
* C83: induction on the fixed derivations of C35, whose answers are tied to a call about the symbol they fix; the lexemes of adjacent parts join because parsing goes on where the answer says.
* C84: the run with a declining solver and the counted run of C56 are related step by step: the history grows by at most one call per counted call; a solver that declined during one parse is replaced by one that always declines using the waiting computation of C80. The exponential family is executed symbolically. Upper bound: CountSpec.v adds a record per recursive call to the log (the solver does not see it); the cost argument of C56 (ParserExp.v) is repeated with fixed states and an advancing solver (ParserCount.v).
* C85: UsefulSpec.v defines useful productions by derivations. A parse tree of the initial symbol uses useful productions only (induction on the tree with the context it is derived in); a symbol of a useful production that has productions has a useful one, so the useful part is extended by the grammar in the sense of C65, and C53, C65, C14, C23 give both directions. The counterexamples are a left recursive unproductive symbol (divergence by C58) and an unproductive production that enlarges FOLLOW.
* C86: rule induction on runs with a solver next to the run without solver (`ParserAsked`): up to the first answer both are in the same place, so a failing symbol has, without solver, the report f and fails at p whatever follows p (as in C49), every call so far is at or before p and ends at innermost f; after an answer nothing is claimed. Then C23 as in C49.
* C87: `parse_at_depth` of DepthSpec as in C55, but without the assumptions on left recursion. By induction on the least fuel with which a call ends: a call nested in it ends with less, so it is not the same call (symbol, position, remaining candidates, single-path flag); hence the active calls are pairwise different, and there are at most (productions + non-terminals) per position (`ParserHang`). That equal calls end with the same fuel is C67's simulation for solvers without memory and ParserOff without solver. The remembering solver: a family of solvers that decline k times, by induction on k.
* C88: `SplitSpec` defines the rewriting (`split_repeats`), what fresh aliases are and how alias nodes are removed from a tree. Derivations of the new grammar map to derivations of the old one by replacing aliases, and back (`SplitFacts`); hence LL(1), nullable-last, absence of left recursion and the end marker are kept, and trees correspond. The parser theorems are those of C69 for the rewritten grammar. Case: a grammar whose own parser rejects 3 3 9 while the rewritten one accepts it with the right tree.
* C89: `RecipeSpec` defines the rewriting from the FIRST sets (`prepared`). In a reduced LL(1) grammar with an end marker every non-terminal other than the initial one is followed by something, so at most one of its alternatives is nullable and moving the nullable ones last gives `nullable_last`; the FIRST sets tell nullability exactly (C05); the rest is C88 for the reordered grammar, whose derivations and trees are the same. Case: a grammar with both problems and two sentences its own parser rejects.
* C90: the loop over the symbols of a production: read the stack of states as a number in base (productions + 2), the digit of a state being the number of candidates it has left plus one, missing digits being the largest; pushing a state and retrying an earlier one both decrease it (`ParserHalt`), so (productions + 2) ^ (output length) rounds suffice, for any solver. Together with C87's bound on the nesting, fuel `enough` answers whenever any fuel does. A remembering solver: C87's family.
* C91: ordered choice (ChoiceSpec, PastSpec) is annotated with the number of calls (`ParserEffort`: `ctry`, `cseq`, `cbranch`), and the code makes exactly that many. `EffortFacts` bounds the number by the furthest position m reached: without progress a constant of the grammar (no left recursion bounds the nesting), with progress c * (m - p) minus a credit for the symbols entered at the same place. Because the grammar is LL(1), when a symbol succeeds at a place q before m nothing that can follow it is at q, so whatever comes next consumes nothing; and of the candidates tried at one place at most one consumes anything.
* C92: from C26 and the transcripts of C44: without answers, everything before a failed symbol in a report is covered by parse trees (`prefix_forest`), which turns the nesting of a report, or the single path to a solver call, into a derivation from the initial symbol (`expected_inside`); if all symbols are productive the rest of that derivation can be filled in (`fill`).
* C93: without epsilon productions no symbol derives the empty string, so FIRST alone fills the table (C05, C11). Trees of prefixes are then found by ordered choice directly (`trees_chosen`), and a derivation of the whole input followed by a non-terminal is a run that looks beyond the last token (`cut`, `cut_past`); C24 and C48 give the converses.
* C94: a derivation of the tokens followed by a non-terminal is a sequence of parse trees and production choices (`cut`, `derives_cut`); with the candidates needed (`covering`) and at most one per cell each choice is the parser's (`trees_run`, `cut_stops` over StopSpec), where a tree may already end beyond the input because of trailing nullable non-terminals. C60, C48, C23, C57 and C24 give the rest.
* C95: from the generalisations of C94, C49 and C69 to any table that has the candidates needed (`covering`), which supplied sets give by `supplied_covering` (C63). Such a table without conflicts makes the grammar LL(1) where it is reachable (`covering_ll1`), which rules out left recursion as in C57.
* C96: `first_tree` (FirstChoiceSpec) is a derivation in the relational semantics of C59 by induction, one that never fails, so no solver is consulted and no candidate is retried; the number of calls by the exact effort relation of C91; lookahead because each node reads the token it starts at; the converse for conflict-free tables from C24's ordered choice.
* C97: returned trees are guided by the relational semantics of C59 with any solver (mutual induction over its five relations); a node with children but without tokens at the end would start past the last token. Conversely such a tree means the tokens are cut short before a non-terminal (C94), and any other tree follows the only candidate at every node, so it is a tree of C96.
* C98: mutual induction over the relational semantics of C59 with the invariant that the initial symbol derives the tokens before the current position followed by the symbols still expected; such a position is not past the offending token (`fill`), so both inputs have the same token there. Divergence follows because returning transfers both ways; panics by C48.
* C99: below a symbol with several candidates no solver is asked and RecoverSpec's relation coincides with ChoiceSpec's; mutual induction over `settled` (QuietSpec.v) then derives the tree without a call. With fixed extents, or for the C69 class (via the candidate that wins there), the tree that ordered choice returns is settled. The fourth theorem: the call history only grows, so an empty final history means no rule consulted the solver.
* C100: `trimmed` is proved to give the useful productions by a counting argument for both closures (`saturated`); completable derivations use useful productions only, so the useful part is reduced, LL(1) and has the same trees; derivations of the wrapped grammar are those of the old one followed by the marker, cell by cell; then C89, and C99 for solvers.
* C101: `adds_quietly` weakens C73's condition (added productions may mention old symbols at the end of an output after which nothing can follow); FIRST, FOLLOW and the cells of the part are then the same, the new symbol's cell is computed from `selects_sem`, and `agree_inner` carries the rest.
* C102: a sentential form has the end marker at its end and nowhere else (`ends_once_derived`), so while something is expected the marker is not read yet (`expecting_before_eof`); the relation of C59 is then carried over to the other input as for C98.
* C103: sufficiency (EndingFacts.v, `late_wins`): on a token where an early candidate ends on nothing, the rest of the production fails on that token, so the non-terminal is tried again until its textbook production is reached. Necessity (PlaceFacts.v, PropEnding.v): since all symbols are productive, a textbook cell and a use of the non-terminal are met in a sentence (`tree_in_context`); a run of the early candidate and of what follows, both on nothing, is kept (`early_stays`), so the tree built differs from the sentence's one. Outcomes (EndingCutFacts.v): on an input cut short before a non-terminal ordered choice has no result (`cut_no_result`, induction over it), so the parse, which returns (C19), indexes past the end. Vocabulary in LastSpec.v (`vanishes`, `textbook_cells_filled`, `no_early_ending`).
* C104: the boolean functions are in ExactSpec.v; ExactFacts.v shows them sound and complete against the textbook relations, using that the computed sets cover the textbook's (C06-C08, C12) and are covered by them when all symbols are reachable; the vanishing symbols are a saturated least fixed point. The equivalence with parsing is C103.
* C105: induction on the exact semantics of C59 without solver (ReachFacts.v, `reach_run`): for every position K, a failure either names something at or behind K, or no input that is the same before K has a guided tree there; where a symbol starts determines where it ends, so what was read before the failing symbol ends in the same place on such inputs. The greatest K of the first kind is the first offending token. Positions in a report (`named_at`, ReachSpec.v) are defined through what the symbols before derive.
* C106: a separate big-step definition of parsing expression grammars (PegSpec.v); induction on the ordered choice of C24 (PegFacts.v, `choice_peg`): a second attempt at a symbol ends where the first ended, so what follows fails again; with one candidate there is no second attempt, and the converse holds as well (`peg_choose`). C106_decides uses C19, C17 for termination and C99 for solvers. C106_local by induction on the derivation (`peg_move`).
* C107: the factored grammar is never built. Two trees of one symbol over the same tokens, both with permitted continuations, coincide (FactorFacts.v, `same_trees`); so an earlier candidate that succeeds on a beginning of the right tokens shares the common beginning with the right one and then must end there (`wrong_candidate_fails`), which `longer_first` and the declaration order of the cells exclude. The settled-choice argument of C99 and C100 then applies (LastFacts.v, `others_fail`). That such grammars are not left recursive generalises the argument of C57 (FactorLeft.v): the rest of the finite alternative after the common beginning conflicts with the rest of the cyclic one. The check is proved sound and, for reachable symbols, complete by the exactness of FIRST (C05) and FOLLOW (C07, C08).
* C108: `never_fits_early` is the semantic form of what C107 needs of a grammar: an earlier candidate cannot succeed on a beginning of the right tokens, so its attempt fails (PropFactor.v, `others_fail_exact`) and the settled-choice argument of C99, C100 and C107 applies. An LL(k) grammar has it (FitFacts.v, `ll_k_fits`): a wrong candidate that succeeds on at least k tokens agrees in them with the right one; shorter ones are excluded by `short_later`. The check takes tables of k-token beginnings and follows as certificates, checks that they are closed under the productions, and compares (FitCheck.v). Unambiguity is a property of the grammar alone, by induction on two trees of one symbol in a common context, with equal tokens and continuations (`fits_same_trees`; for LL(k), in left sentential forms, `ll_k_same_trees`). That the grammars of C107 are among these (FitCover.v) reuses `same_trees`; that LL(1) is LL(k) for k = 1 needs the end marker for alternatives that vanish together with all that follows (PropLadder.v).


No property in the list is inexpressible in the model.

## 3. Trusted base

* Coq 8.16.1's kernel (and `coqchk`); `vm_compute` is used in examples and refutations.
* `Print Assumptions` prints "Closed under the global context" for every theorem `Cnn_*` (the command stands after each theorem in the `Prop*.v` files): no axioms, neither of the standard library nor our own.
* `coqchk`, which lists the axioms of every *loaded* library file, also reports the abstract fields `Coq.ssr.ssrunder.Under_rel.*` of Coq's own ssreflect support. No theorem depends on them.
* The faithfulness of the model to the Rust text as cited, and the simplifications of section 1.

Testing of the model: `SpecTests.v` replays all unit tests of the repository; `seeded/LOG.jsonl` records wrong variants of the model and the theorems each one breaks.
