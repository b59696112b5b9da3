# Formal model of antlr4rust (rrevenantt/antlr4rust) in Rocq/Coq 8.16

## Layout

* `properties.jsonl` – the properties (C01 …), stated in API terms.
* `rocq/theories/*Model.v` – the model, function by function; each definition cites the `/repo/src` lines it models and says
  where it simplifies. No proofs in these files.
* `rocq/theories/*Spec.v` – small independent specifications used in the theorem statements.
* `rocq/theories/*Proofs.v` – lemmas.
* `rocq/theories/*Props.v` – the property theorems `Cnn_…`, each followed by `Print Assumptions`, with `Cnn_nonvacuous…`
  examples showing a concrete case that meets the hypotheses.
* `rocq/theories/*Demo.v` – small grammars used by these examples.
* `MANIFEST.json` – property → theorem names and status.
* `seeded/LOG.jsonl` – log of mutation experiments against the theorems.

Naming: `Cnn_…_refuted` is the proved negation of a property (or of a part of it) that is false of the code, with the
counterexample in the proof; `Cnn_…_partial` is what holds instead or what is proved of it. A refuted property has the
status `partial` in the manifest.

## Modelling conventions

* `isize`/`usize` are unbounded `Z`/`nat`: machine overflow is not modelled, except subtraction that would go below
  zero on `usize`, which is an explicit panic, and casts of negative numbers to `usize`, which give an index beyond every vector.
* A Rust panic (explicit, index out of range, `unwrap` on `None`, failed `assert!`, `usize` underflow) is an explicit
  error value (`Panics`, `Panic`, `None` of the result type), never a default.
* `&mut self` becomes a function returning the new state. `Rc`/`Arc`/`RefCell`/`RwLock` sharing is by value, except rule
  contexts, which live in a heap; the models are sequential (single lock holder), except `ConcModel` and `ConcPredictModel`.
* Hash maps/sets are association lists; where iteration order is observable it is a universally quantified permutation
  (a function that may answer differently at every use). Hash functions are arbitrary functions; where the code needs
  them to be free of collisions or non-zero the theorem says so.
* Generated-code callbacks (lexer actions, semantic predicates, listeners, error strategies, rule functions) are section
  variables, oracles, or an inductive type of the programs a generated rule function can be: theorems hold for all of them.
* Loops and recursions without structural measure take fuel with an explicit `NoFuel` value. Theorems of the form "if the
  result is `Val r` then …" hold for every fuel; where termination is claimed, the theorem gives the fuel that is enough.

## What is modelled

| Source | Model file | Left out |
|---|---|---|
| `interval_set.rs` | `IntervalSetModel` | |
| `char_stream.rs`, `input_stream.rs`, `int_stream.rs` | `CharStreamModel` | reading from files (`file_stream.rs` is empty) |
| `token_stream.rs`, `common_token_stream.rs` | `TokenStreamModel` | |
| `token_factory.rs`, text of `token.rs` | `FactoryModel` | arenas (`ArenaFactory`): only where tokens live |
| `prediction_context.rs` | `PredContextModel` | `Display`; murmur3 (arbitrary function) |
| `semantic_context.rs` | `SemContextModel` | `Display` |
| `atn_config.rs`, `atn_config_set.rs`, `prediction_mode.rs` | `ConfigSetModel` | `Display`, unused `cached_hash` of sets |
| `dfa.rs`, `dfa_state.rs` | `DfaModel` | |
| `transition.rs`, `atn_state.rs`, `atn.rs` | `AtnModel`, `Ll1Model` | the memo cell of `next_tokens` |
| `atn_deserializer.rs` | `DeserModel` | `verify_atn` is a no-op in the code |
| `ll1_analyzer.rs`, `atn.rs` 72-175 | `Ll1Model` | |
| `lexer.rs`, `lexer_atn_simulator.rs`, `lexer_action.rs`, `lexer_action_executor.rs` | `LexerModel` | debug output, error message text |
| `tree.rs`, `trees.rs`, `utils.rs`, `rule_context.rs`, tree part of `parser_rule_context.rs` | `TreeModel` | downcasts (`better_any`) are by tag |
| `vocabulary.rs` | `VocabModel` | |
| `parser.rs`, `error_strategy.rs`, `errors.rs`, use made of them by generated code (`templates/Rust.stg`) | `ParserModel` | texts of user-defined errors (a parameter); weak parent links are taken to be alive |
| `dfa_serializer.rs`, `dfa.rs` 141-170, `dump_dfa` | `DumpModel` | |
| `error_listener.rs`, its callers | `ErrorListenerModel` | the DFA and configurations handed to listeners; the lexer's error value |
| `parser_atn_simulator.rs` | `PredictModel` | the configuration set handed to ambiguity listeners |
| its locking (97-124, 171-173, 385-388), `dump_dfa` (663-680), `parking_lot::RwLock` | `ConcModel`, `ConcPredictModel` | memory order (locks are taken to synchronise), fairness, the context cache's lock (never held while waiting) |
| locking of lexers (`lexer_atn_simulator.rs` 78-107, 188-317, 373-406; `lexer.rs` 316-389) | `ConcLexModel` | threads with different input types, lexing inside semantic predicates, a DFA change that panics half-way |
| rule functions of `templates/Rust.stg` as the tool fills them in for an ATN | `GenModel`, `RecModel` (adds left-recursive rules, precedence predicates and predicates) | actions, arguments, return values; where `sync` is called, the lookahead tests and the truth of predicates are parameters |

Not modelled: `tokenstream_rewriter.rs` (pseudo-code, not compiled), code generation templates beyond the calls rule
functions make, `Display` formatting of debug output, memory management and unsafe
downcasts, machine integer overflow, memory exhaustion.

## Plan, property by property

| Property | What is modelled | How it is proved |
|---|---|---|
| C01, C02 | `IntervalSet` as a list of pairs, in-place loops as functions on lists | denotation as set of numbers, canonical-form invariant, induction on histories; both refuted in general by computation, proved for histories in which a range touches at most two stored ones |
| C03–C05 | difference, complement, removal, rendering | denotation; independent parser of the rendering |
| C06–C09 | `InputStream` over code points and over UTF-8 bytes | refinement to a position in the list of characters; UTF-8 decoding spec |
| C10 | iterator wrapper | refuted by computation for every input; symbols before the panic by induction |
| C11–C15 | `UnbufferedTokenStream` as record (buffer, offsets, markers, source) | invariant relating buffer to source over operation lists |
| C16–C20, C71, C72 | `CommonTokenStream` and iterators on top of the former | specification by the k-th visible token of the source; induction on hidden runs |
| C21–C25 | `PredictionContext` as inductive type, `merge` with its cache | denotation as set of stacks (with wildcard), invariant on caches, nested induction |
| C26, C27 | `ATNConfigSet`, `prediction_mode` | invariant over insertion sequences (first occurrence of keys, union of stacks); set-based spec, arbitrary iteration order |
| C28–C30 | `SemanticContext` trees with oracle | truth as an inductive relation; induction on trees |
| C31, C32, C64 | `DFA` start-state vector, edges, state table | get/set laws over histories of operations |
| C33–C35, C37 | lexer ATN simulator: closure, reach, exec, DFA cache | path semantics of the ATN as an inductive relation; the configuration lists are proved to be the paths, in rule order; the cache as an invariant over histories of matches, under the assumption that the hash is free of collisions |
| C36, C38–C42, C77 | `BaseLexer::next_token` loop, position tracking, modes, action executor | induction on runs, for all matchers and embedded code that does not move the lexer |
| C43–C46, C73 | deserializer, `add_transition`, `matches` | independent serializer and round trip; case analysis |
| C47, C48, C74 | `LL1Analyzer`, `get_expected_tokens` | inductive path relation through rule calls; soundness and (for grammars without left recursion) completeness of the search with its busy set |
| C49–C52, C67, C68, C70, C75, C76 | trees, walker, visitors, string tree, vocabulary, factory, escaping | structural induction against independent traversals |
| C53–C56, C69 | parser driver with heap of rule contexts; rule functions as programs | invariants over every run of every program; `Fits` relation between runs and trees; listeners as a walk over the tree |
| C57–C61, C79 | error strategies | inputs as finite lists of tokens ahead; invariants over stretches without a match |
| C62, C63, C78 | prediction driver over any token stream | frame lemma for every function of the simulator: position, marks, positions of evaluations |
| C65 | `apply_precedence_filter` | exact characterisation for all sets; refuted counterexample for the property as stated |
| C80 | LL prediction with its DFA against matching of the remaining input | runs through the ATN as an inductive relation; the configurations denote positions, closure and reach sets are exact on them, the DFA is an invariant over histories of predictions |
| C81 | the same model, all grammars | invariant "alternatives are those of the decision" through every function and over all uses of a DFA |
| C82 | `ParserModel.v` (messages), small vocabulary of what may be told (`MessageSpec.v`) | induction over histories of rule functions: every notice sent is `told`, the error counter counts them; exact set by C48 and C05; refutation by a run for unescaped text |
| C83 | `ErrorListenerModel.v`: listeners by kind, what consoles print and users' listeners hear is accumulated | folds over the list of listeners; texts against decimal numerals and the token range text of C20; refutation by a prediction of the C80 demo grammar |
| C84 | `DumpModel.v` on the DFA of `DfaModel.v` | induction over states and edge vectors; refutations by computation |
| C85 | the same model, any grammar (`PredictTotalSpec.v`) | total correctness with growing fuel: every function shown to give one value from some fuel on; closures end because ways that match nothing descend (well-founded by finiteness of states and `no_stall`), reach loops because EOF or the input ends; invariant of DFAs over histories rules the panics out; refutation for a grammar that stalls |
| C86 | `GenModel.v`: rule bodies that follow the ATN, on the parser of `ParserModel.v` and the prediction of `PredictModel.v` | induction on the length of the sentence, the rules in progress and the descent of empty matches; sync is silent by C47, predictions are right by C80 and return by C85; refutations by runs |
| C87 | the same model, any decisions | invariant "nothing told so far, so what was read matches" through matching, sync, and recovery; more fuel changes nothing |
| C88 | the same model with `BailErrorStrategy`, any input | well-founded descent (`steps_acc`): every step matches a token or moves on without one; errors are shown to be caught as cancellations in one step; combined with C85, C86 and C87 |
| C89 | the same model with `DefaultErrorStrategy` | refuted: a body that can be followed from state to state for ever needs more than any fuel (`GenHangProofs`); one round of the loop, over an arbitrary tree, leads back to its beginning (`GenHangDemo`) |
| C90 | threads as programs over jobs (looks at and changes of a DFA, calls of user code); locks as `parking_lot`'s, small steps, any schedule; `adaptive_predict` as such a job | invariant tying lock states to what threads do; the history of a DFA is a sequence of whole predictions; a rank argument for deadlock; the job gives what `PredictModel` gives, so C80 and C85 apply |
| C91 | the same model | refuted: an invariant that leads to the thread waiting for itself; well-founded runs end in deadlock |
| C92 | a match as a job that looks at and changes the shared DFA of its mode; threads that call `next_token` | the job gives what `LexerModel`'s match gives; every DFA in the history satisfies the cache invariant of C33-C35, so each answer is the longest match (with non-greedy rules, one C105 allows); tokens of a thread compared with those of a lexer alone, by induction over the calls |
| C93 | `RecModel.v`: rule bodies that follow the ATN, left-recursive ones with the calls that keep contexts | every run of a body is shown, by induction on its fuel, to be a run of a list of calls (`ParserModel.run_calls`) along the ATN; then C53-C55 |
| C94 | the same | induction on the fuel: a run without notices consumed the label of each transition it took, and passed each precedence test |
| C95 | the same; `RecBuildSpec.v`: derivation trees, with the tree-building calls of the generated code read as instructions | induction on the fuel: the context under construction always shows the tree built so far (invariant of C53-C55), and a run without notices changes it exactly as the derivation says |
| C96 | `SpanModel.v`: source intervals, on top of `ParserModel.v`; `SpanSpec.v`: what a node has to cover, and what looking at a stream means | induction on the calls of a rule function (as C53-C55): the context under construction starts at the token where the rule began, and the token before the cursor is the last one read; the common stream satisfies `looking` when its first token is on the channel |
| C97 | no new model: `LexerModel`, `TokenStreamModel`, `ParserModel`, `RecModel` put together; the token stream's source is the list of the lexer's tokens, though the code lexes them one by one as they are needed; `WholeSpec.v` | composition of C38 (pieces tile the input), C77 (text of tokens) and C54 (leaves are the tokens before the cursor) |
| C98 | no new model: `LexerModel`; the reference lexer is the relation `lexes_to` of `MunchSpec.v`, which knows only the rules' languages, their commands and the modes | induction over the calls of next_token with an invariant that ties mode, mode stack, channel, start and error list of the lexer to the state of the reference; one match by C33-C35, existence by C37 |
| C99 | no new model: `LexerModel`, `TokenStreamModel`, `GenModel`, `RecModel` put together as in C97; `TextSpec.v` (`reads_text`, `types_on`) | composition of C106 (tokens, non-greedy rules included), C37 (lexing ends), C94 (soundness) and C88 (decision) |
| C100 | no new model: `PredictModel`; `OperatorSpec.v` (`operator_loop`: the shape of the ATN of such a rule, `offers`) | invariant of the closure (alternative 1 has exactly the operators, alternative 2 no operator that could match; contexts never return into the loop unfiltered), of the precedence filter and of the DFA under any history (`odfa`: edges of a start state for level q lead to accept states of the right alternative, for every q the state serves) |
| C101 | no new model: `RecModel`, `PredictModel`; `OrderSpec.v` (`parts`, `nested`, `spelled`, `operator_rule`: the shape of such a rule) | the walk of C95 with the token types ahead and C100 at the loop entry (`directed`), an invariant of the node under construction for every stage of the rule (`status`); uniqueness: a tree with the right operands is what a deterministic reading by levels, from left to right, gives (`reads`, `nested_reads`, `one_reading`); existence: that reading, and what it keeps true of the part read, by induction on the length (`ends`, `all_read`) |
| C102 | `TokenDisplayModel.v`: `Display`, `clone`, `to_owned`; `TokenDisplaySpec.v` (`printed`: the form) | the three replacements are one escaping (C68); the numbers before the text are split off at the first separator from the left, those behind it at the last from the right, whatever the text is (`printed_inj`) |
| C103 | `CachedHashModel.v`: contexts with `cached_hash`, `calc_hash`, `alloc`, `==` and `merge` with stored hashes and `Arc::ptr_eq` (an arbitrary relation implying equality), `Hash` as the sequence of writes, configurations, sets, DFA states, keys; `CachedHashSpec.v` (`plain`, `made`) | everything `made` is the image under `dress` (the right hash everywhere) of a plain context, and merging commutes with `dress` (`merge_dress`, induction on the fuel), so the model without hashes of `PredContextModel.v` is justified; equality compares more than is hashed |
| C104 | `VisitorModel.v`: methods as what they do next (`method`), `visit_node` with the temporary, `visit`, `visit_children`; `VisitorSpec.v` (`says`: the same without a temporary; `descends`; `value`) | soundness by induction on the fuel, completeness by mutual induction on `says`; coming back by induction on the tree. Not modelled: methods that read the temporary themselves, an overridden `visit_children` |
| C105 | the lexer model of C33, now with non-greedy decisions; `LazySpec.v` (`token_of`: what may be passed over) | the invariants of C33 (closure, reach sets, DFA states and edges) with an alternative: a configuration is present, or it belongs to a non-greedy rule that has been accepted with this text or a shorter one; then induction over the characters read. Same class as C33 without the condition `greedy`. The shortest-text claim is for rules of a fixed shape (`delimited` in `LazySpec.v`: opening, one-character non-greedy loop, closing of fixed length): the configurations of such a rule stay ordered by how much of the closing they have read, so the first one accepted is the first in the list and drops the rest |
| C106 | the lexer model; `MunchSpec.v`, whose reference takes the choice of a match as a parameter, with the choice of `LazyLexSpec.v` (`lazy_munch`) | the proof of C98, which needs of a match only that it is one the reference picks, with C105 for each match; uniqueness for grammars whose rules are greedy or `delimited`; existence of all tokens by C37 |
| C107 | no new model: `LexerModel` and `ErrorListenerModel`; `ConsoleSpec.v` (`complains`: what is printed about a stretch of the reference lexer) | composition of C106 and C83; uniqueness of places and decimals; a dropped line break refutes that each report is one line; the stretches tile the text by induction on the reading, and with C94 a silent lexer and parser accept all of it |
| C66 | predicate collection, accept and conflict states | invariant of the collection loop; bit sets as sets; all hash orders |

Each row gives what the property needs of the model; the exact scope of each theorem is in its manifest note.

## Findings

Things the proofs showed to be wrong, or surprising, in the code. Each is a theorem unless marked otherwise.

* `IntervalSet::add_range` merges at most two ranges; a range that spans more leaves stale ranges (C01, C02), which
  lookahead and expected-token sets inherit (C47, C48).
* Stream iterators consume at end of input and panic (C10). `lt(-k)`, k ≥ 2, of the unbuffered stream is off by one,
  `lt(-1)` at the start panics (C12); the parser stream panics or answers a wrong token looking behind (C19).
* Forward seeks in a marked region fail (C13); consumed tokens stay buffered (C15); a parser token stream starts at an
  off-channel token (C17); `la` past the end is not EOF on the unbuffered stream (C71).
* One merge cache serves both root modes during a prediction, but its key lacks the mode (C21).
* Precedence predicates are not eliminated from trees all of whose operands change (C30).
* `set_precedence_dfa(true)` on an existing DFA loses all start states (C31).
* The lexer's DFA cache is not transparent for actions, since executors with different actions can be equal (C35);
  a token installed by an action is lost (C40); `set_line` sets the column (C41).
* The lexer's error messages quote the dropped text as it is, so a dropped line break makes a report of two lines, unlike the parser's (C107).
* Words 0 and 1 of a serialized ATN are decoded wrongly (C43), labels above 65533 and removed states break the round trip
  (C44); a wildcard does not match the smallest and largest symbol, `matches` of a rule transition panics (C46).
* A not-set after an equal set, and a second epsilon to one target, are dropped by `add_transition` (C73).
* Walking a tree with an unlabelled context left by an error gives no callbacks (C49), visiting it panics (C76).
* A token conjured at a set match is in no tree (C54); a left-recursive rule leaves the parser in another state (C55);
  listeners see exit without enter after early errors (C56); removal of a listener can remove another one (C56).
* `set_exception` is a no-op, so no context records its exception (C61).
* A prediction that fails never releases its mark (C63). Full-context prediction reports the start token as offending
  token (model only). The precedence filter keeps redundant configurations and forgets the outer depth of those it
  simplifies (C65).
* LL prediction can choose an alternative that does not match, while another does, if the start rule is invoked by
  another rule and its input does not end with EOF, or if a wildcard has to match the largest token type (C80).
* A prediction never comes back in a grammar that can repeat the empty match (C85; the tool rejects such grammars).
* A generated parser reports an error on a sentence, or panics: with the default strategy and wide labels, when the first
  token is on a hidden channel, and over an unbuffered token stream (C86).
* Read in the code, not modelled: with `build_parse_trees = false` parent contexts are only weakly held; `verify_atn` does
  nothing; `set_alt_number` does nothing.
* With the default error strategy a parser can run for ever without reading anything (C89): SLL prediction inside a
  rule considers what may follow the rule anywhere, so an optional part is predicted to be empty because of some other
  caller; the missing token after it is made up, since what is there may come next; and the loop around both starts
  again. The failsafe of `recover` is never reached, because nothing is thrown.

* Listeners are called with the lock of the DFA held: one that parses with the same grammar makes its thread wait for
  itself for ever when the nested parse comes to the same decision (C91).  The same goes for
  lexers: actions run while the match holds the lock of the DFA of its mode, so an action that
  runs another lexer of the same grammar waits for itself.

## Trusted base

* Coq 8.16.1 kernel (`coqc`; re-checked with `coqchk`).
* `Print Assumptions` under every theorem prints "Closed under the global context": no axioms, neither own nor of the
  standard library.
* That the hand-written model reflects the cited Rust lines, with the simplifications listed at the head of each model file.
* The Rust standard library (Vec, HashMap, str), `bit_set` and `murmur3` are modelled by their documented behaviour, the
  last as an arbitrary function.
