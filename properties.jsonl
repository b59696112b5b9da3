{"id": "C01", "title": "Interval set membership is exact after any insertions", "statement": "After any sequence of add_one/add_range/add_set calls on an IntervalSet, contains(x) answers true exactly for the integers x that lie in at least one of the ranges that were added.", "quantifier": "all finite sequences of insertions with arbitrary bounds, all integers x", "why_tests_cant": "Insertion merges neighbouring ranges; the outcome depends on how many existing ranges one new range touches, which is unbounded.", "anchors": ["src/interval_set.rs: IntervalSet::add_interval, add_one, add_range, add_set, contains"]}
{"id": "C02", "title": "Interval sets stay canonical", "statement": "After any sequence of insertions the stored ranges are non-empty, strictly ascending, pairwise disjoint and non-adjacent, so two sets with the same members compare equal, get_min is the least member and length() is the number of members.", "quantifier": "all finite sequences of insertions", "why_tests_cant": "Canonical form is an invariant over unbounded histories; unit tests insert two or three ranges.", "anchors": ["src/interval_set.rs: IntervalSet::add_interval, length, get_min, PartialEq"]}
{"id": "C03", "title": "Set difference and complement are exact", "statement": "For canonical sets A and B, after A.substract(B) the set contains exactly the members of A not in B and is again canonical; complement(lo,hi) contains exactly the integers in lo..=hi not in the set; both terminate.", "quantifier": "all pairs of canonical sets, all bounds", "why_tests_cant": "The two-cursor loop mutates the vector it scans; correctness needs an invariant for all interleavings of the two range lists.", "anchors": ["src/interval_set.rs: IntervalSet::substract, complement"]}
{"id": "C04", "title": "Removing one element removes exactly that element", "statement": "For a canonical, not read-only set, remove_one(el) leaves a canonical set whose members are the old members except el; on a read-only set it panics and never modifies.", "quantifier": "all canonical sets, all integers el", "why_tests_cant": "Splitting a range while iterating over the vector being modified has unbounded many positions and neighbour shapes.", "anchors": ["src/interval_set.rs: IntervalSet::remove_one"]}
{"id": "C05", "title": "Set rendering lists each member once in ascending order", "statement": "to_token_string of a canonical set renders {} for the empty set, the bare display name for one member, and otherwise a brace-enclosed, comma-separated list of the display names of all members in ascending order, each exactly once (EOF and EPSILON by their reserved names).", "quantifier": "all canonical sets, all vocabularies", "why_tests_cant": "The element enumeration is a nested loop over unbounded ranges.", "anchors": ["src/interval_set.rs: to_token_string, element_name"]}
{"id": "C06", "title": "Code-point input stream lookahead is a window onto the text", "statement": "On a stream over n symbols positioned at i (0<=i<=n): la(k) for k>=1 is symbol i+k-1 or EOF when that position is at or past the end; la(-k) is symbol i-k, or EOF before the start; la never moves the stream and consume advances by exactly one and is rejected only at the end.", "quantifier": "all texts, all reachable positions, all non-zero offsets", "why_tests_cant": "Offsets, positions and texts are unbounded, boundary arithmetic differs for positive and negative offsets.", "anchors": ["src/input_stream.rs: InputStream::la, consume, index, size", "src/char_stream.rs: InputData::offset, item"]}
{"id": "C07", "title": "UTF-8 string stream never splits a character", "statement": "On a stream over a UTF-8 string, starting from 0, after any number of consume calls the index is the byte offset of a character boundary, la(k) is the code point of the k-th following character (EOF at the end), la(-k) the k-th preceding one; consume moves by exactly one character; after consume, la(-1) equals the previous la(1).", "quantifier": "all valid UTF-8 strings (all mixes of 1-4 byte characters), all positions reached by consume, all offsets", "why_tests_cant": "Depends on every combination of multi-byte character widths on either side of the position.", "anchors": ["src/char_stream.rs: impl InputData for str (offset, item, len)", "src/input_stream.rs: InputStream::la, consume"]}
{"id": "C08", "title": "Stream text extraction is the inclusive slice", "statement": "get_text(start,stop) for token boundaries start<=stop inside the input returns exactly the characters from start through the character beginning at stop; adjacent extractions concatenate back to the original text; it never cuts a UTF-8 character.", "quantifier": "all texts (slices and UTF-8 strings), all character-boundary pairs", "why_tests_cant": "Inclusive end, end-of-input clamping and multi-byte widths interact for arbitrary positions.", "anchors": ["src/input_stream.rs: get_text, get_text_inner, get_text_owned", "src/char_stream.rs: InputData::offset"]}
{"id": "C09", "title": "Char stream mark/seek restores the exact state", "statement": "For any history of consume/la/mark/release/seek on an InputStream, seek(i) with i a previously returned index() makes every subsequent observation equal to what it was when index() returned i; the text itself is never modified.", "quantifier": "all operation histories, all previously observed indices", "why_tests_cant": "Histories are unbounded.", "anchors": ["src/input_stream.rs: mark, release, seek, index"]}
{"id": "C10", "title": "Iterating a stream yields each symbol once and then ends", "statement": "IterWrapper over an IntStream positioned at i yields symbols i,i+1,...,n-1 and then None (without panicking).", "quantifier": "all texts and positions", "why_tests_cant": "Needs the end-of-stream step for every length.", "anchors": ["src/int_stream.rs: IterWrapper::next", "src/input_stream.rs: consume"]}
{"id": "C11", "title": "Unbuffered token stream presents the source in order", "statement": "For any history of lt/la/consume/mark/release and seeks inside the buffered window, lt(k) (k>=1) is the source token number index()+k-1 (the EOF token once the source has ended), each token's token_index is its position in the source order, index() counts consumed tokens, and lookahead never moves the position.", "quantifier": "all token sources, all legal operation histories", "why_tests_cant": "The buffer is shifted and refilled by interleavings of lookahead, mark and release that cannot be enumerated.", "anchors": ["src/token_stream.rs: UnbufferedTokenStream::{sync,fill,lt,consume,mark,release,seek,get}"]}
{"id": "C12", "title": "Token stream look-behind", "statement": "lt(-k) on the unbuffered token stream is the token k positions before the current one, when that token is still buffered, for all k>=1.", "quantifier": "all streams, positions and k>=1", "why_tests_cant": "Needs all k; existing tests use at most -1.", "anchors": ["src/token_stream.rs: UnbufferedTokenStream::lt"]}
{"id": "C13", "title": "Seeking is legal anywhere in a marked region", "statement": "With an active mark, seek(i) to any index between the mark and the end of the source succeeds and lt(1) is then source token i.", "quantifier": "all sources, marks and target indices", "why_tests_cant": "The amount of already fetched lookahead at the time of the seek is arbitrary.", "anchors": ["src/token_stream.rs: UnbufferedTokenStream::seek, sync, fill", "src/int_stream.rs: IntStream::mark docs"]}
{"id": "C14", "title": "Marks pin the buffer, releasing the last one discards exactly the consumed prefix", "statement": "While a marker is held no token at or after the marked position is discarded and seek back to the marked index restores the stream; releasing the last marker drops exactly the tokens before the current position and does not change index() nor any later lookahead; markers must be released innermost first or the call panics.", "quantifier": "all legal nested mark/release histories", "why_tests_cant": "Nesting depth and the interleaved consumption are unbounded.", "anchors": ["src/token_stream.rs: UnbufferedTokenStream::{mark,release,seek}"]}
{"id": "C15", "title": "Unbuffered stream memory does not grow without marks", "statement": "With no marker held, an UnbufferedTokenStream keeps only the tokens needed for current lookahead: after consuming with la(1)-style lookahead the number of buffered tokens is bounded by a constant independent of how many tokens were consumed.", "quantifier": "all consumption histories without marks", "why_tests_cant": "A bound over arbitrarily long runs.", "anchors": ["src/token_stream.rs: UnbufferedTokenStream::consume, new_unbuffered docs"]}
{"id": "C16", "title": "Parser token stream: consume skips off-channel tokens", "statement": "On a CommonTokenStream, after consume() the current token lt(1) is the next token of the source that is on the stream's channel or EOF, and skipped tokens are still retrievable by get(i); repeatedly consuming visits exactly the on-channel tokens in source order.", "quantifier": "all token sources, all channels, all positions", "why_tests_cant": "Runs of hidden tokens of arbitrary length in arbitrary places.", "anchors": ["src/common_token_stream.rs: consume, next_token_on_channel, lt"]}
{"id": "C17", "title": "A fresh parser token stream starts at an on-channel token", "statement": "Immediately after construction, lt(1)/la(1) of a CommonTokenStream is the first on-channel token of the source (or EOF), also when the source begins with hidden-channel tokens.", "quantifier": "all token sources and channels", "why_tests_cant": "Depends on sources starting with hidden tokens, any number of them.", "anchors": ["src/common_token_stream.rs: CommonTokenStream::with_channel, lt"]}
{"id": "C18", "title": "Parser token stream lookahead counts on-channel tokens and sticks at EOF", "statement": "From an on-channel position, lt(k) for k>=1 is the k-th on-channel token counting the current one, and EOF for every larger k; it does not move the stream.", "quantifier": "all sources, channels, positions and k>=1", "why_tests_cant": "Unbounded lookahead over arbitrary hidden-token patterns.", "anchors": ["src/common_token_stream.rs: lt, next_token_on_channel"]}
{"id": "C19", "title": "Parser token stream look-behind", "statement": "lt(-k) on a CommonTokenStream is the k-th on-channel token before the current position, and None (never a panic, never some other token) when fewer than k exist.", "quantifier": "all sources, channels, positions and k>=1", "why_tests_cant": "Depends on hidden tokens at the beginning of the buffer.", "anchors": ["src/common_token_stream.rs: lb, next_token_on_channel"]}
{"id": "C20", "title": "Token range text is the concatenation of all tokens in the range", "statement": "get_text_from_interval(a,b) returns the texts of tokens a..=b (all channels) concatenated in order, stopping before EOF; get_all_text returns it for the whole buffer.", "quantifier": "all sources, all index ranges", "why_tests_cant": "Range and token count unbounded.", "anchors": ["src/token_stream.rs: get_text_from_interval", "src/common_token_stream.rs: get_text_from_interval, get_all_text"]}
{"id": "C21", "title": "Merging call-stack contexts is union of stacks (full context)", "statement": "With root_is_wildcard=false, the set of call stacks represented by merge(a,b) is exactly the union of the sets represented by a and b.", "quantifier": "all pairs of well-formed prediction contexts (graph-structured stacks of any depth and width)", "why_tests_cant": "Recursive merge over arbitrary graph-structured stacks; shape pairs are infinite.", "anchors": ["src/prediction_context.rs: PredictionContext::merge, merge_singletons, merge_root, merge_arrays"]}
{"id": "C22", "title": "Merging with wildcard roots only over-approximates", "statement": "With root_is_wildcard=true, merge(a,b) represents at least every stack of a and b up to the rule that an empty (wildcard) stack stands for all stacks; merging with the empty context gives the empty context.", "quantifier": "all pairs of well-formed contexts", "why_tests_cant": "As C21, plus the wildcard absorption rule at every level.", "anchors": ["src/prediction_context.rs: merge_root, merge_singletons, merge_arrays"]}
{"id": "C23", "title": "Merged contexts are well-formed", "statement": "merge of well-formed contexts (return states strictly ascending, parents matched one to one, empty marker last) is well-formed and never panics, so context lookups stay in range.", "quantifier": "all pairs of well-formed contexts", "why_tests_cant": "Inductive invariant over arbitrary graphs.", "anchors": ["src/prediction_context.rs: merge_arrays, combine_common_parents, new_array, new_singleton"]}
{"id": "C24", "title": "Context sharing cache does not change meaning", "statement": "get_shared_context returns a context equal to its argument for any cache contents, and all cached entries stay equal to their keys.", "quantifier": "all contexts, all caches reachable by any history", "why_tests_cant": "The cache is shared by all parsers of a grammar; histories are unbounded.", "anchors": ["src/prediction_context.rs: PredictionContextCache::get_shared_context, add"]}
{"id": "C25", "title": "Prediction context of a parse stack lists its return states", "statement": "from_rule_context of a rule-invocation stack represents exactly one call stack: the follow states of the invoking states from innermost to outermost.", "quantifier": "all parse stacks of any depth, all ATNs", "why_tests_cant": "Depth unbounded.", "anchors": ["src/prediction_context.rs: from_rule_context"]}
{"id": "C26", "title": "Configuration sets keep one entry per (state, alt, predicate) and lose no stack", "statement": "After adding any sequence of configurations to a parser configuration set: no two entries share state, alternative and predicate; every added configuration's call stacks are represented by the entry with its key and (in full-context mode) nothing else is; first-insertion order is kept; adding to a read-only set panics.", "quantifier": "all insertion sequences", "why_tests_cant": "Histories of insertions with arbitrary repetition.", "anchors": ["src/atn_config_set.rs: ATNConfigSet::add_cached, Key", "src/prediction_context.rs: merge"]}
{"id": "C27", "title": "Conflict and unique-alternative analysis matches its definition", "statement": "get_alts, unique alternative, all_subsets_conflict, all_subsets_equal, has_state_associated_with_one_alt and get_single_viable_alt on a configuration set compute what their definitions say about the sets {alts of configs sharing state and stack}.", "quantifier": "all configuration sets", "why_tests_cant": "Grouping by (state, stack) over arbitrary sets; hash-map iteration order is arbitrary.", "anchors": ["src/prediction_mode.rs: has_sll_conflict_terminating_prediction, all_subsets_conflict, all_subsets_equal, get_alts, get_conflicting_alt_subsets, get_single_viable_alt, has_state_associated_with_one_alt", "src/parser_atn_simulator.rs: get_unique_alt"]}
{"id": "C28", "title": "Predicate conjunction and disjunction mean AND and OR", "statement": "For every predicate oracle, evaluating SemanticContext::and(a,b) equals evaluate(a) && evaluate(b) and or(a,b) equals ||, including nested operators, precedence predicates folded to a single one, and the absent/NONE operand.", "quantifier": "all predicate trees, all user predicate outcomes, all precedences, all hash-set iteration orders", "why_tests_cant": "Trees and oracle outcomes are unbounded.", "anchors": ["src/semantic_context.rs: SemanticContext::{and,or,new_and,new_or,evaluate}"]}
{"id": "C29", "title": "Precedence evaluation of predicates is sound", "statement": "eval_precedence at the current precedence returns None only for predicates that evaluate to false and otherwise a predicate with the same truth value, for every user predicate outcome.", "quantifier": "all predicate trees, oracles and precedences", "why_tests_cant": "Recursive simplification over arbitrary trees.", "anchors": ["src/semantic_context.rs: eval_precedence"]}
{"id": "C30", "title": "Precedence evaluation eliminates decided precedence predicates", "statement": "A predicate tree consisting only of precedence predicates is fully decided by eval_precedence: the result is None when it is false and the trivially true context when it is true.", "quantifier": "all precedence-only predicate trees", "why_tests_cant": "Depends on nesting.", "anchors": ["src/semantic_context.rs: eval_precedence"]}
{"id": "C31", "title": "Precedence DFA start states behave as a map", "statement": "On a precedence DFA, after set_precedence_start_state(p,s) with p>=0, get_precedence_start_state(p) is s and every other precedence's start state is unchanged; negative precedences are ignored on write and absent on read; on a non-precedence DFA both panic.", "quantifier": "all histories of set calls, all precedences", "why_tests_cant": "Vector resizing over arbitrary precedence values and histories.", "anchors": ["src/dfa.rs: DFA::get_precedence_start_state, set_precedence_start_state, new, set_precedence_dfa"]}
{"id": "C32", "title": "Cached DFA edges never alias", "statement": "In the parser and lexer DFA caches, storing an edge (state,symbol)->target makes exactly that lookup return target, leaves all other lookups unchanged, and symbols outside the cached range are simply not cached.", "quantifier": "all edge-insertion histories, all symbols including EOF and out-of-range", "why_tests_cant": "Index arithmetic t+1 / t-MIN over the whole symbol range and histories.", "anchors": ["src/parser_atn_simulator.rs: add_dfaedge, get_existing_target_state", "src/lexer_atn_simulator.rs: add_dfaedge, get_existing_target_state"]}
{"id": "C33", "title": "Lexer takes the longest match", "statement": "For a lexer grammar with greedy, predicate-free rules, match_token accepts the longest prefix of the remaining input that any rule of the current mode matches, leaves the stream right behind it, and reports an error only if no prefix of the remaining input is matched by any rule.", "quantifier": "all lexer ATNs in the class, all inputs, all start positions", "why_tests_cant": "Both grammar and input range over infinite sets.", "anchors": ["src/lexer_atn_simulator.rs: match_token, match_atn, exec_atn, fail_or_accept, capture_sim_state, accept"]}
{"id": "C34", "title": "Among equally long matches the first rule wins", "statement": "When several rules match the longest prefix, the token type is that of the rule declared first in the mode.", "quantifier": "all lexer ATNs in the class, all inputs", "why_tests_cant": "As C33.", "anchors": ["src/lexer_atn_simulator.rs: compute_start_state, closure, get_reachable_config_set, add_dfastate, capture_sim_state"]}
{"id": "C35", "title": "Lexer DFA cache is transparent", "statement": "Running the lexer with a DFA cache warmed by any sequence of previous matches gives the same token type, the same end position and the same actions as running with an empty cache.", "quantifier": "all lexer ATNs, all warm-up histories, all inputs", "why_tests_cant": "Caches are shared across all lexers of a grammar; the order in which inputs were seen before is arbitrary.", "anchors": ["src/lexer_atn_simulator.rs: add_dfastate, add_dfaedge, get_existing_target_state", "src/lexer_action_executor.rs: new_copy_append, hash"]}
{"id": "C36", "title": "Tokens carry the position of their first character", "statement": "The line and column recorded for a token are the number of newlines before its start plus one, and the number of characters since the last newline; they depend only on the text before the token, not on how it was tokenised.", "quantifier": "all inputs, all tokenisations", "why_tests_cant": "Arbitrary texts and token boundaries, newline inside tokens.", "anchors": ["src/lexer_atn_simulator.rs: consume, accept, capture_sim_state", "src/lexer.rs: next_token, emit"]}
{"id": "C37", "title": "Lexing always makes progress, ends with EOF and keeps returning EOF", "statement": "Repeatedly calling next_token on a finite input yields finitely many tokens followed by EOF, and then EOF on every further call; every call terminates provided each match consumes at least one character.", "quantifier": "all inputs, all matcher behaviours satisfying the progress condition", "why_tests_cant": "Termination and liveness over all inputs.", "anchors": ["src/lexer.rs: BaseLexer::next_token, emit_eof, recover"]}
{"id": "C38", "title": "Tokens tile the input", "statement": "Every character of the input belongs to exactly one of: an emitted token, a skipped token, a character dropped by error recovery; token start/stop indices are ascending and non-overlapping, and `more` pieces are joined into one token with the original start.", "quantifier": "all inputs, all rule command outcomes (emit, skip, more, error)", "why_tests_cant": "Arbitrary interleavings of skip/more/error over arbitrary inputs.", "anchors": ["src/lexer.rs: next_token, emit, skip, more, recover"]}
{"id": "C39", "title": "Mode stack is a stack", "statement": "push_mode(m) followed by a balanced sequence and pop_mode returns the lexer to the mode it was in; set_mode does not touch the stack; pop_mode on an empty stack leaves the mode unchanged and reports nothing to pop.", "quantifier": "all sequences of mode commands", "why_tests_cant": "Arbitrary nesting depth.", "anchors": ["src/lexer.rs: push_mode, pop_mode, set_mode"]}
{"id": "C40", "title": "A token installed by an action is returned", "statement": "If a lexer action sets the lexer's current token, next_token returns that token instead of creating its own (as documented for the token field).", "quantifier": "all inputs and actions", "why_tests_cant": "Depends on control flow inside the matching loop for every state.", "anchors": ["src/lexer.rs: BaseLexer.token doc, next_token"]}
{"id": "C41", "title": "set_line / set_char_position_in_line set the reported position", "statement": "After setting the line (column) on a lexer, get_line (get_char_position_in_line) reports that value and the other coordinate is unchanged.", "quantifier": "all values and states", "why_tests_cant": "Algebraic law over all values.", "anchors": ["src/lexer_atn_simulator.rs: set_line, set_char_position_in_line", "src/lexer.rs: set_line wrappers"]}
{"id": "C42", "title": "Lexer action execution leaves the stream where the match ended", "statement": "Executing the collected lexer actions runs them in order, presents position-dependent custom actions with the stream at the position where they occurred in the rule, and leaves the stream index at the end of the match in every case.", "quantifier": "all action lists, offsets, inputs", "why_tests_cant": "Arbitrary mixes of position dependent and independent actions.", "anchors": ["src/lexer_action_executor.rs: LexerActionExecutor::execute, fix_offset_before_match", "src/lexer_action.rs"]}
{"id": "C43", "title": "ATN deserialisation accepts exactly the supported format", "statement": "deserialize panics on any version other than 3 and any unknown UUID, and decodes each serialized word by the documented offset (value-2 with the 16-bit wrap), for all inputs.", "quantifier": "all serialized strings", "why_tests_cant": "All words and headers.", "anchors": ["src/atn_deserializer.rs: deserialize, check_version, check_uuid"]}
{"id": "C44", "title": "ATN deserialisation inverts serialisation", "statement": "For every ATN description (states, rules, modes, sets, edges, decisions, lexer actions), deserialising its serialized form reconstructs exactly that description.", "quantifier": "all ATN descriptions", "why_tests_cant": "A round trip over an infinite family of structures.", "anchors": ["src/atn_deserializer.rs: deserialize, read_states, read_rules, read_modes, read_sets, read_edges, read_decisions, read_lexer_actions, edge_factory"]}
{"id": "C45", "title": "Adding transitions keeps the epsilon-only flag and rejects duplicates correctly", "statement": "After any sequence of add_transition calls a state holds no two equal transitions (same target and label or both epsilon to the same target), in first-insertion order, and is flagged epsilon-only exactly when all its transitions are epsilon.", "quantifier": "all sequences of added transitions", "why_tests_cant": "Histories of arbitrary mixtures.", "anchors": ["src/atn_state.rs: BaseATNState::add_transition, has_epsilon_only_transitions"]}
{"id": "C46", "title": "Transition matching agrees with its label", "statement": "For every consuming transition kind, matches(symbol,min,max) holds exactly when symbol is in the label set (complemented within min..=max for not-sets; any symbol of the vocabulary for wildcard); epsilon-like transitions match nothing.", "quantifier": "all transitions, all symbols and vocabularies", "why_tests_cant": "All integers.", "anchors": ["src/transition.rs: Transition::matches, get_label"]}
{"id": "C47", "title": "LL(1) lookahead sets are the FIRST sets", "statement": "ATN.next_tokens(state) contains exactly the token types that can label the first consumed symbol on some path from the state within its rule, plus EPSILON iff the rule end is reachable without consuming.", "quantifier": "all ATNs, all states", "why_tests_cant": "Reachability over arbitrary (recursive) graphs.", "anchors": ["src/ll1_analyzer.rs: look, look_work", "src/atn.rs: next_tokens, next_tokens_in_ctx"]}
{"id": "C48", "title": "Expected-token sets follow the call stack", "statement": "get_expected_tokens(state,ctx) is the union of lookahead sets along the invocation stack as long as each can finish, with EPSILON replaced by EOF when the whole stack can finish.", "quantifier": "all ATNs and invocation stacks", "why_tests_cant": "Stack depth unbounded.", "anchors": ["src/atn.rs: get_expected_tokens"]}
{"id": "C49", "title": "Tree walking visits in document order with balanced enter/exit", "statement": "ParseTreeWalker fires enter_every_rule/enter before the children and exit/exit_every_rule after them, exactly once per rule node, and visit_terminal/visit_error_node exactly once per leaf, in left to right order.", "quantifier": "all parse trees", "why_tests_cant": "Trees of unbounded depth and width.", "anchors": ["src/tree.rs: ParseTreeWalker::walk, walk_inner, enter_rule, exit_rule"]}
{"id": "C50", "title": "Tree text is the text of its leaves", "statement": "get_text of a parse tree is the concatenation of the texts of its leaves in order.", "quantifier": "all parse trees", "why_tests_cant": "Unbounded trees.", "anchors": ["src/parser_rule_context.rs: get_text", "src/tree.rs: LeafNode::get_text"]}
{"id": "C51", "title": "LISP-style tree rendering is faithful", "statement": "to_string_tree renders a leaf as its escaped text and an inner node as (name child ... child); distinct tree shapes over atoms free of blanks and parentheses render differently.", "quantifier": "all parse trees", "why_tests_cant": "Injectivity over an infinite family.", "anchors": ["src/trees.rs: string_tree, get_node_text", "src/utils.rs: escape_whitespaces"]}
{"id": "C52", "title": "Vocabulary display names fall back literal, symbolic, numeric", "statement": "get_display_name(t) is the explicit display name if any, else the literal name, else the symbolic name (EOF for -1), else the decimal token type; lookups outside the tables never fail.", "quantifier": "all vocabularies and token types (including negative and out of range)", "why_tests_cant": "All integers and table lengths.", "anchors": ["src/vocabulary.rs: VocabularyImpl::{get_display_name,get_literal_name,get_symbolic_name,from_token_names}"]}
{"id": "C53", "title": "Rule entry and exit are balanced", "statement": "For any well-nested sequence of enter_rule/exit_rule (with arbitrary consumption in between) the current context and invoking state after exit_rule are those before enter_rule, and each rule's context is attached exactly once, in order, as a child of its caller when tree building is on.", "quantifier": "all well-nested call histories", "why_tests_cant": "Unbounded recursion depth.", "anchors": ["src/parser.rs: enter_rule, exit_rule, add_context_to_parse_tree, enter_outer_alt"]}
{"id": "C54", "title": "Parse tree leaves are the consumed tokens", "statement": "With tree building on, the leaves of the parse tree in order are exactly the tokens consumed (as terminal or error nodes) plus conjured missing tokens.", "quantifier": "all parser driver histories", "why_tests_cant": "Arbitrary interleaving of consume, recovery and rule nesting.", "anchors": ["src/parser.rs: consume, match_token, create_token_node, create_error_node", "src/error_strategy.rs: recover_inline"]}
{"id": "C55", "title": "Left-recursion unrolling builds left-associative nesting", "statement": "enter_recursion_rule / push_new_recursion_context / unroll_recursion_context restore the caller's context and precedence and nest each earlier context as first child of the later one.", "quantifier": "any number of recursion pushes", "why_tests_cant": "Unbounded iteration.", "anchors": ["src/parser.rs: enter_recursion_rule, push_new_recursion_context, unroll_recursion_context, precpred, get_precedence"]}
{"id": "C56", "title": "Parse listeners see balanced events in registration order", "statement": "enter/visit events are delivered to listeners in registration order, exit events in the reverse order, with the same context; removed listeners receive nothing.", "quantifier": "all listener sets and histories", "why_tests_cant": "Unbounded histories.", "anchors": ["src/parser.rs: add_parse_listener, remove_parse_listener, trigger_enter_rule_event, trigger_exit_rule_event"]}
{"id": "C57", "title": "Error recovery consumes to the follow set and no further", "statement": "consume_until(set) consumes exactly the maximal run of tokens not in the set and stops at a member or EOF; it always terminates.", "quantifier": "all inputs and sets", "why_tests_cant": "Run length unbounded.", "anchors": ["src/error_strategy.rs: consume_until"]}
{"id": "C58", "title": "Error recovery cannot loop without progress", "statement": "If recover is called twice at the same input position in the same parser state without intervening progress, the second call consumes at least one token unless at EOF.", "quantifier": "all parser states, positions, inputs", "why_tests_cant": "Liveness across arbitrary repeated failures.", "anchors": ["src/error_strategy.rs: DefaultErrorStrategy::recover, last_error_index, last_error_states, end_error_condition"]}
{"id": "C59", "title": "One syntax error is reported once until a token is matched", "statement": "Between two successful matches report_error notifies listeners at most once; after a successful match reporting is enabled again.", "quantifier": "all sequences of report/recover/match", "why_tests_cant": "Arbitrary sequences.", "anchors": ["src/error_strategy.rs: report_error, begin_error_condition, end_error_condition, report_match, sync"]}
{"id": "C60", "title": "Inline recovery: single-token deletion and insertion", "statement": "On a mismatch: if the token after the current one is expected, exactly the current token is dropped and the next is returned as matched (deletion); else if the current token is consistent with what follows the missing one, a conjured token of an expected type is returned and nothing is consumed (insertion); else an error is returned and nothing is consumed.", "quantifier": "all inputs, expected sets, ATNs", "why_tests_cant": "Three-way case over arbitrary sets and inputs.", "anchors": ["src/error_strategy.rs: recover_inline, single_token_deletion, single_token_insertion, get_missing_symbol"]}
{"id": "C61", "title": "Bail strategy stops at the first error", "statement": "With BailErrorStrategy the first mismatch is returned as a FallThrough cancellation wrapping the original error, nothing is consumed, every enclosing context records the exception and sync never fails.", "quantifier": "all parser states", "why_tests_cant": "Context depth unbounded.", "anchors": ["src/error_strategy.rs: BailErrorStrategy::{recover,recover_inline,sync,process_error}"]}
{"id": "C62", "title": "Prediction does not move the input", "statement": "adaptive_predict leaves the token stream at the index where it started, whether it returns an alternative or an error, for any grammar and DFA cache contents.", "quantifier": "all ATNs, decisions, inputs, cache states", "why_tests_cant": "All control paths through simulation and cache.", "anchors": ["src/parser_atn_simulator.rs: adaptive_predict, exec_atn, exec_atn_with_full_context, eval_semantic_context"]}
{"id": "C63", "title": "Prediction releases its mark on every path", "statement": "After adaptive_predict returns (Ok or Err) the number of outstanding marks on the token stream is what it was before.", "quantifier": "all ATNs, decisions, inputs", "why_tests_cant": "Error paths.", "anchors": ["src/parser_atn_simulator.rs: adaptive_predict"]}
{"id": "C64", "title": "Parser DFA states are deduplicated by configuration set", "statement": "add_dfastate returns an existing state exactly when one with an equal configuration set is cached, otherwise appends a new one numbered by its position; existing states are never modified or renumbered.", "quantifier": "all caches and states, all hash functions (collisions included)", "why_tests_cant": "Collisions and histories.", "anchors": ["src/parser_atn_simulator.rs: add_dfastate", "src/dfa_state.rs: PartialEq"]}
{"id": "C65", "title": "Precedence filter keeps exactly the non-redundant configurations", "statement": "apply_precedence_filter keeps configs of alternative 1 whose precedence predicates hold (simplified), and of other alternatives exactly those not subsumed by a kept alternative-1 configuration with the same state and stack, unless suppression is flagged.", "quantifier": "all configuration sets and precedences", "why_tests_cant": "Arbitrary sets.", "anchors": ["src/parser_atn_simulator.rs: apply_precedence_filter"]}
{"id": "C66", "title": "Predicate collection at conflicts is complete", "statement": "For conflicting alternatives, the predicates computed per alternative evaluate to true whenever some configuration of that alternative's predicate does, and the chosen alternative is the least one whose predicate holds; unpredicated alternatives are always viable.", "quantifier": "all configuration sets, conflict sets, oracles", "why_tests_cant": "Arbitrary sets and oracles.", "anchors": ["src/parser_atn_simulator.rs: get_preds_for_ambig_alts, get_predicate_predictions, eval_semantic_context"]}
{"id": "C67", "title": "Token creation takes the right text", "statement": "The token factories give a token the explicitly supplied text if any, the input slice start..=stop when inside the input, and <EOF> otherwise, and record type, channel, positions unchanged with token_index -1.", "quantifier": "all arguments and inputs", "why_tests_cant": "All position combinations relative to the input size.", "anchors": ["src/token_factory.rs: CommonTokenFactory::create"]}
{"id": "C68", "title": "Whitespace escaping removes control whitespace and preserves everything else", "statement": "escape_whitespaces output contains no tab, newline, carriage return (and no blank when requested), other characters are kept in order; escape distributes over concatenation; two inputs without backslashes and middle dots have equal output only if they are equal.", "quantifier": "all strings", "why_tests_cant": "All strings.", "anchors": ["src/utils.rs: escape_whitespaces"]}
{"id": "C69", "title": "Rule invocation stack is reported innermost first", "statement": "The sequence of states produced from a context for error reporting is the invoking states along the parent chain, ending at the root, and its length is the nesting depth.", "quantifier": "all context chains", "why_tests_cant": "Depth unbounded.", "anchors": ["src/rule_context.rs: states_stack"]}
{"id": "C70", "title": "Child token accessors", "statement": "get_token(t,i) is the i-th terminal child with type t in order and get_tokens(t) all of them; error nodes and rule nodes are treated as their documentation says.", "quantifier": "all child lists, types, indices", "why_tests_cant": "Unbounded child lists.", "anchors": ["src/parser_rule_context.rs: get_token, get_tokens, child_of_type"]}
{"id": "C71", "title": "Token lookahead at or past the end is EOF", "statement": "la(k) of a token stream returns EOF whenever position index()+k-1 is at or beyond the EOF token, as IntStream::la documents.", "quantifier": "all token sources, histories, positions and k>=1", "why_tests_cant": "Unbounded lookahead distance past the end from every position.", "anchors": ["src/int_stream.rs: IntStream::la docs", "src/token_stream.rs: UnbufferedTokenStream::la", "src/common_token_stream.rs: la, lt_inner"]}
{"id": "C72", "title": "Token iterator yields the rest of the tokens including EOF once", "statement": "token_iter() from any position yields each remaining token in order, then the EOF token once, then None on every further call, never panicking.", "quantifier": "all sources, positions, any number of extra next() calls", "why_tests_cant": "Any number of tokens and calls.", "anchors": ["src/token_stream.rs: TokenIter::next, token_iter"]}
{"id": "C73", "title": "Adding a transition to a state never loses what it stands for", "statement": "After adding a transition to a state, some transition of the state leads to the same target and covers everything the added one stands for: every symbol it can be taken on, and the same predicate, action or rule invocation if it consumes nothing.", "quantifier": "all states with any transitions already present, all added transitions", "why_tests_cant": "Depends on the combination of all transitions added before, of any kind.", "anchors": ["src/atn_state.rs: BaseATNState::add_transition", "src/transition.rs: get_label of SetTransition and NotSetTransition"]}
{"id": "C74", "title": "Lookahead in a full context follows the whole invocation stack", "statement": "ATN.next_tokens_in_ctx(state, Some(ctx)) contains exactly the token types that can come next given the whole invocation stack of ctx, plus EOF iff the whole stack can finish without consuming, and never EPSILON.", "quantifier": "all ATNs, states and invocation stacks", "why_tests_cant": "Reachability over arbitrary graphs and stacks of unbounded depth.", "anchors": ["src/ll1_analyzer.rs: look, look_work", "src/atn.rs: next_tokens_in_ctx", "src/prediction_context.rs: from_rule_context"]}
{"id": "C75", "title": "Rule stack printing", "statement": "to_string of a rule context is, in brackets and separated by single blanks, one item per context from the given one outwards to the root or up to but excluding the stop context: the rule's name, or its decimal index when it has no name; without rule names the invoking state, nothing for a context that was not invoked.", "quantifier": "all context chains, rule name tables and stop contexts", "why_tests_cant": "Unbounded chains, all tables.", "anchors": ["src/parser_rule_context.rs: RuleContextExt::to_string"]}
{"id": "C76", "title": "Visitors aggregate children left to right", "statement": "Visiting a node with a result-returning visitor calls the node's method; by default the children are visited left to right while should_visit_next_child agrees, and the result is the aggregation of the children's results starting from the default value; no result of an earlier visit leaks into a later one.", "quantifier": "all parse trees and all visitors", "why_tests_cant": "Unbounded trees, arbitrary visitor state.", "anchors": ["src/tree.rs: ParseTreeVisitorCompat::{visit,visit_children,aggregate_results}, ParseTreeVisitor blanket implementation"]}
{"id": "C77", "title": "Token text is the text it covers", "statement": "Unless embedded code sets the token's text, the text of every non-empty token returned by next_token is exactly the characters of the input from its start to its stop index, also when the token was joined from several `more` pieces and when the input is a UTF-8 string with multi-byte characters.", "quantifier": "all grammars, inputs, embedded code that does not move the lexer or set token texts", "why_tests_cant": "Arbitrary token boundaries relative to multi-byte characters, over arbitrary inputs.", "anchors": ["src/lexer.rs: emit, next_token", "src/token_factory.rs: create", "src/input_stream.rs: get_text"]}
{"id": "C78", "title": "Predicates are evaluated where the decision starts", "statement": "Whenever adaptive_predict evaluates a user predicate, however far it has read ahead, the token stream stands at the index where the prediction was started.", "quantifier": "all ATNs, decisions, inputs, predicates, cache states", "why_tests_cant": "All control paths through simulation, conflict resolution and cache.", "anchors": ["src/parser_atn_simulator.rs: adaptive_predict, exec_atn, pred_transition, precedence_transition, eval_semantic_context, split_according_to_semantic_validity"]}
{"id": "C79", "title": "Recovery resynchronises at what an active rule can continue with", "statement": "After a syntax error, recover() skips to the first token with which one of the rules under way (the failing rule's caller, its caller, ...) can go on, or to the end of input; it skips no such token, except the one it takes when it is called twice at one position. Inside a loop, sync() in addition stops at tokens expected next.", "quantifier": "all grammars, invocation stacks, inputs and strategy states", "why_tests_cant": "The follow set depends on an unbounded invocation stack and on all paths through the grammar.", "anchors": ["src/error_strategy.rs: get_error_recovery_set, recover, sync, consume_until"]}
{"id": "C80", "title": "Prediction chooses an alternative that can match the rest of the input", "statement": "If some alternative of a decision, followed by what the rules in progress still have to match, can match all the tokens up to the end of the input, then adaptive_predict (in the LL modes) returns such an alternative and never reports a syntax error; among the alternatives that can, it returns the first. The answer does not depend on what the shared DFA cache learned from other inputs and contexts.", "quantifier": "all grammars, decisions, rule invocation stacks, token streams and their histories, DFA caches filled by any earlier predictions, hash functions and hash set orders", "why_tests_cant": "Unbounded lookahead and recursion, arbitrary cache histories.", "anchors": ["src/parser_atn_simulator.rs: adaptive_predict, exec_atn, compute_target_state, exec_atn_with_full_context, compute_reach_set, closure", "src/prediction_mode.rs", "src/prediction_context.rs: merge, from_rule_context", "src/dfa.rs"]}
{"id": "C81", "title": "A prediction names an alternative that exists", "statement": "When adaptive_predict returns an alternative, it is between 1 and the number of branches of the decision, never the invalid alternative 0 and never one of another decision, so generated code always finds a matching branch.", "quantifier": "all grammars (predicates, left recursion, loops), modes, token streams, user predicates, DFA caches filled by any earlier predictions", "why_tests_cant": "All paths through simulation, predicate evaluation, error recovery of the simulator and cache.", "anchors": ["src/parser_atn_simulator.rs: adaptive_predict, exec_atn, predicate_dfa_state, get_syn_valid_or_sem_invalid_alt_that_finished_decision_entry_rule", "src/prediction_mode.rs: get_single_viable_alt"]}
{"id": "C82", "title": "Every syntax error is told to the listeners once, in words that fit the situation", "statement": "The number of syntax errors counts exactly the messages sent to error listeners. Each message is of one of the documented forms and fits the state the parser was in: 'extraneous input T expecting S' and 'missing S at T' with T the current token and S the tokens expected there, 'mismatched input T expecting S' with the token, state and rule invocations at which the error was raised, 'no viable alternative at input ...' quoting all the text from where the decision started to where it failed, 'rule R ...' for failed predicates. S lists, in ascending order and once each, exactly the tokens that can come next. Tabs and line breaks of the input are escaped, so that each message is a single line.", "quantifier": "all grammars, vocabularies, inputs, histories of rule functions with any nesting of errors and recovery, both error strategies", "why_tests_cant": "Arbitrary input text, arbitrary expected sets and arbitrary sequences of errors.", "anchors": ["src/error_strategy.rs: report_error, report_no_viable_alternative, report_input_mismatch, report_failed_predicate, report_unwanted_token, report_missing_token, get_token_error_display, escape_ws_and_quote", "src/parser.rs: notify_error_listeners", "src/utils.rs: escape_whitespaces", "src/interval_set.rs: to_token_string"]}
{"id": "C83", "title": "Error listeners all hear everything, and say where", "statement": "A recognizer starts with a console listener; afterwards exactly the listeners added since the last removal are registered. Every syntax error, and every report of the prediction (ambiguity, full-context attempt, context sensitivity), is told to each registered listener exactly once, in the order of registration, with the line and column of the offending token (for the lexer: of the start of the dropped text). The console listener prints one 'line L:C message' per error; a diagnostic listener turns the reports it is interested in (inexact ambiguities only if asked for) into messages naming the decision, its rule, the alternatives and the input. The count of syntax errors counts syntax errors only.", "quantifier": "all sequences of adding and removing listeners, all errors and reports, token streams, positions, decisions", "why_tests_cant": "Arbitrary listener lists, arbitrary texts and numbers.", "anchors": ["src/error_listener.rs: ConsoleErrorListener, ProxyErrorListener, DiagnosticErrorListener", "src/parser.rs: add_error_listener, remove_error_listeners, notify_error_listeners, get_error_lister_dispatch", "src/lexer.rs: add_error_listener, remove_error_listeners, notify_listeners", "src/parser_atn_simulator.rs: report_ambiguity, report_attempting_full_context, report_context_sensitivity"]}
{"id": "C84", "title": "A DFA dump lists the cached transitions", "statement": "The textual dump of a decision's DFA (parser and lexer) has exactly one line per cached transition other than those known to be errors, ordered by state and symbol, each naming both states (accepting ones with the alternative, those that need full context marked) and the symbol; dump_dfa shows, under a heading, exactly the decisions whose DFA has states of its own. A dump can be made of any DFA.", "quantifier": "all DFAs, vocabularies and lists of decisions", "why_tests_cant": "Unbounded DFAs with arbitrary edges.", "anchors": ["src/dfa_serializer.rs", "src/dfa.rs: to_string, to_lexer_string", "src/parser.rs: dump_dfa"]}
{"id": "C85", "title": "Prediction always comes back", "statement": "For a grammar in which nothing can be repeated or recursed into without matching a token (the ANTLR tool rejects the others), adaptive_predict called for a decision of the grammar by the rule that contains it returns, with an alternative or with a syntax error: it neither panics nor runs on for ever, whatever the remaining tokens, the rules in progress, the prediction mode, the user's predicates and what the shared DFA cache learned before. (Assumed: no prediction context hashes to 0, which the code takes for 'no hash'.)", "quantifier": "all grammars with predicates and left-recursive rules, decisions, rule invocation stacks, precedences, modes, token streams and their histories, DFA caches filled by any earlier predictions of the decision, predicates, hash functions and hash set orders", "why_tests_cant": "Termination and absence of panics over unbounded inputs, recursion depths and cache histories.", "anchors": ["src/parser_atn_simulator.rs: adaptive_predict, exec_atn, compute_target_state, exec_atn_with_full_context, compute_reach_set, closure, closure_checking_stop_state, closure_work, apply_precedence_filter", "src/prediction_context.rs: merge", "src/dfa.rs"]}
{"id": "C86", "title": "A generated parser accepts every sentence of its grammar", "statement": "For a grammar in which nothing can be repeated without matching a token, a start rule's function of the parser generated for it, called on a token stream about to deliver a sentence of that rule, comes back with Ok, having read the whole sentence, without having told the error listeners anything or counted a syntax error; afterwards the parser, its strategy and the shared DFAs can be used again in the same way. It does not panic and does not run on for ever. (Full-context LL prediction; the default or the bail-out error strategy.)", "quantifier": "all grammars, the code the tool generates for them (sync calls, lookahead tests, predictions), token streams and their histories, sentences, DFA caches filled by earlier parses, hash functions and hash set orders", "why_tests_cant": "Unboundedly many grammars, sentences, nesting depths and cache histories.", "anchors": ["templates/Rust.stg", "tests/gen/csvparser.rs", "tests/gen/labelsparser.rs", "src/parser.rs", "src/error_strategy.rs", "src/parser_atn_simulator.rs"]}
{"id": "C87", "title": "What a generated parser accepts is a sentence", "statement": "If the function of a rule ends with Ok and the error listeners have been told nothing, then the tokens it has read match the rule; together with C86, the inputs accepted silently are exactly the sentences.", "quantifier": "all grammars without predicates, any lookahead tests and prediction results (right or wrong), any placement of sync, modes, error strategies, streams and histories", "why_tests_cant": "Unboundedly many inputs and executions, including those with wrong predictions.", "anchors": ["templates/Rust.stg", "src/parser.rs: match_token, match_wildcard", "src/error_strategy.rs: sync, recover_inline, recover"]}
{"id": "C88", "title": "With the bail-out strategy a generated parser always comes back, and tells sentences from other inputs", "statement": "For a grammar in which nothing can be repeated without matching a token, a start rule's function of the parser generated for it with BailErrorStrategy, called on any input at all, comes back: with Ok, the error listeners having been told nothing, or with the cancellation error, after at most one report. It does not panic and does not run on for ever, in any prediction mode. If the rule ends with EOF and LL prediction is used, it returns Ok exactly on the sentences. If SLL prediction (the first stage of two-stage parsing) returns Ok, so would the second stage.", "quantifier": "all grammars, the code generated for them, inputs (valid or not), stream histories, prediction modes, DFA caches filled by earlier parses, hash functions and hash set orders", "why_tests_cant": "Unboundedly many grammars, inputs and cache histories; termination is not testable.", "anchors": ["templates/Rust.stg", "src/error_strategy.rs: BailErrorStrategy", "src/parser.rs", "src/parser_atn_simulator.rs", "tests/gen/csvparser.rs"]}
{"id": "C89", "title": "With the default error strategy a generated parser always comes back (it does not)", "statement": "For a grammar in which nothing can be repeated without matching a token, a start rule's function of the parser generated for it with DefaultErrorStrategy comes back on every input, reporting and repairing syntax errors on the way. (Refuted: there are a grammar and an input of two tokens on which the parser inserts the same missing token again and again and never reads another one, in every prediction mode.)", "quantifier": "all grammars, the code generated for them, inputs (valid or not), prediction modes", "why_tests_cant": "A test that hangs shows nothing; that no amount of time is enough is a statement about an infinite run.", "anchors": ["templates/Rust.stg", "src/error_strategy.rs: DefaultErrorStrategy::{recover_inline, single_token_insertion, sync}", "src/parser_atn_simulator.rs: adaptive_predict", "src/parser.rs: match_token"]}
{"id": "C90", "title": "Parsers in several threads can share the DFAs of their grammar", "statement": "When any number of threads run parsers of the same grammar, which share the static DFA cache, and threads dump the cache meanwhile, then in every schedule: each prediction gives what it would give if the thread were alone with the cache as the predictions before it have left it; while a thread changes a DFA no other thread looks at it; if user code called by predictions does not parse with the same grammar, the threads never deadlock, and no schedule goes on for ever. No prediction panics because of other threads, and (for the grammars of C80, in LL mode) every prediction is right.", "quantifier": "all thread counts, programs of the threads, schedules, grammars, inputs, token stream histories, cache states, listeners", "why_tests_cant": "Schedules cannot be enumerated; a race shows up in few of them. Deadlock freedom is about all of them.", "anchors": ["src/parser_atn_simulator.rs: adaptive_predict, get_dfa_mut, compute_target_state, add_dfastate", "src/parser.rs: dump_dfa", "src/dfa.rs"]}
{"id": "C91", "title": "User code called by a prediction can parse with the same grammar (it cannot)", "statement": "An error listener that is told of a conflict by a prediction may itself run a parser of the same grammar on other text (an included file, a nested expression); the outer parse then goes on; and the action of a lexer rule may run another lexer of the same grammar. (Refuted: the prediction holds the lock of its DFA while it calls listeners, so a prediction of the same decision waits for itself for ever, in every schedule; and a match holds the lock of the DFA of its mode while it runs actions. With parsers of other grammars it works.)", "quantifier": "all grammars, inputs, schedules, other threads, listeners", "why_tests_cant": "A test that hangs shows nothing, and only those nested parses hang that come to the same decision while it is being predicted.", "anchors": ["src/parser_atn_simulator.rs: adaptive_predict, report_attempting_full_context, report_context_sensitivity, report_ambiguity", "src/error_listener.rs", "src/lexer_atn_simulator.rs: match_token, fail_or_accept"]}
{"id": "C92", "title": "Lexers in several threads can share the DFAs of their grammar", "statement": "When any number of threads run lexers of the same grammar, on any texts, sharing the static DFA cache, then in every schedule: each match takes the longest prefix that some rule of the mode matches, for the first such rule, or, if there are non-greedy rules, a prefix that C105 allows; a thread that lexes a text gets exactly the tokens, and its lexer ends in exactly the state, that it would get without other threads, which are those of C106; and if actions do not lex, the threads never deadlock.", "quantifier": "all thread counts, programs of the threads, schedules, grammars, texts, modes, numbers of tokens", "why_tests_cant": "Schedules cannot be enumerated, and a cache entry made by one thread can be wrong for another thread's text only.", "anchors": ["src/lexer_atn_simulator.rs: match_token, match_atn, exec_atn, compute_target_state, add_dfaedge, add_dfastate, fail_or_accept", "src/lexer.rs: next_token"]}
{"id": "C93", "title": "A generated parser does nothing but follow its grammar", "statement": "Whatever the input, the error strategy, the predicates, the lookahead decisions and the contents of the DFAs, a call of a generated rule function (of ordinary or left-recursive rules) does exactly what some path through the ATN of the rule prescribes: matches, rule calls with their precedences, context keeping, interrupted only by errors; decisions do nothing but look ahead. When it comes back, and the parse was not cancelled, the caller's context and the precedence stack are what they were, the tree built is one new child of the caller's node, its shape is that of the path, and its leaves are the tokens consumed, in order, besides EOF and tokens conjured by error recovery.", "quantifier": "all grammars (left recursion and predicates included), inputs, token stream histories, error strategies, DFA contents, predicates, depths of recursion", "why_tests_cant": "Paths, depths and error positions are unbounded; a context lost at one error position or precedence level shows in few inputs.", "anchors": ["templates/Rust.stg: RuleFunction, LeftRecursiveRuleFunction, CodeBlockForAlt, SemPred, InvokeRule", "tests/gen/simplelrparser.rs: a_rec", "src/parser.rs: enter_recursion_rule, push_new_recursion_context, unroll_recursion_context, precpred", "src/parser_atn_simulator.rs: adaptive_predict"]}
{"id": "C94", "title": "What a generated parser with left-recursive rules accepts is in the language", "statement": "If a generated parser, of any grammar, ends without telling its error listeners anything, then the tokens it consumed are a sentence of the start rule: they lead from the start of the rule to its end, operators of left-recursive rules being used only at levels the precedence of the call allows, predicates only where they can hold; EOF may be matched at the end.", "quantifier": "all grammars (left recursion and predicates included), inputs, error strategies, prediction modes, DFA contents, lookahead tests", "why_tests_cant": "The inputs that must be refused are infinitely many; a wrong decision could let a non-sentence pass in rare contexts.", "anchors": ["templates/Rust.stg", "src/parser.rs: match_token, precpred", "src/error_strategy.rs: sync, recover_inline, report_error", "src/parser_atn_simulator.rs: adaptive_predict"]}
{"id": "C95", "title": "On valid input the parse tree is a derivation tree", "statement": "If a generated parser, of any grammar, ends without telling its error listeners anything, the tree it hands back is a derivation tree of the start rule: its leaves are the tokens consumed, in their order, and after them at most EOF; every rule call is one node with what that call matched below it; in left-recursive rules each operator has the operands that the precedences give it.", "quantifier": "all grammars (left recursion and predicates included), inputs, error strategies, prediction modes, DFA contents, lookahead tests", "why_tests_cant": "Tests look at a few trees; that no input and no order of earlier parses yields a tree with a missing, repeated or misplaced node needs an argument about every run.", "anchors": ["templates/Rust.stg", "src/parser.rs: match_token, enter_rule, exit_rule, enter_recursion_rule, push_new_recursion_context, unroll_recursion_context, precpred", "src/error_strategy.rs: sync, recover_inline"]}
{"id": "C96", "title": "Source intervals of parse tree nodes", "statement": "After a rule function returns (Ok), every rule node of the tree it built that contains tokens read from the input has a source interval that starts at the index of the first of these tokens and ends at the index of the last one, or at the end of input if the node matched that: whatever was skipped or made up by error recovery, and also for the nodes left-recursive rules put around others.", "quantifier": "all grammars and inputs, error strategies, predictions, histories of rule calls, positions in the stream; the stream's first token is on the parser's channel", "why_tests_cant": "Tests look at the intervals of a few nodes; that no sequence of nested calls, lookaheads, error recoveries and left-recursive unrollings makes a node start or stop at another node's token needs an invariant over all runs.", "anchors": ["src/parser.rs: enter_rule, exit_rule, enter_recursion_rule, push_new_recursion_context, unroll_recursion_context", "src/parser_rule_context.rs: get_source_interval, set_start, set_stop, copy_from", "src/tree.rs: get_source_interval", "src/common_token_stream.rs: lt, lb", "templates/Rust.stg"]}
{"id": "C97", "title": "From the text to the tree nothing gets lost", "statement": "When a parser reads the tokens of a lexer, then after any rule call the input before the token at which the parser stands is exactly: the texts of the leaves that were read, in their order, and between them only the texts of tokens on other channels, text the lexer was told to skip, and text that was dropped with an error report each. If the parser has reached the end of input, this is the whole text.", "quantifier": "all lexer and parser grammars, texts (code points or UTF-8), predictions, syntax errors and recoveries, error strategies; embedded lexer code that leaves the position, token and text alone; no empty tokens", "why_tests_cant": "That lexer, token stream, parser and error recovery together neither lose, repeat nor reorder a character, on any text and after any errors, follows only from invariants of all of them.", "anchors": ["src/lexer.rs: next_token, emit", "src/common_token_stream.rs: consume, next_token_on_channel", "src/parser.rs: consume", "src/error_strategy.rs: recover, sync", "src/token_factory.rs: create", "templates/Rust.stg"]}
{"id": "C98", "title": "The tokens are those of the grammar's rules and commands", "statement": "The first n tokens a lexer gives for a text are exactly those of a reference reading of the grammar: in the current mode take the longest match, the first rule that matches it, and obey the rule's commands in their order (type, channel, skip, more, mode, pushMode, popMode); a skipped stretch gives nothing, more lets the next match continue the same token, a stretch that matches nothing is reported once with its place and text and dropped, and the end of the input gives end-of-input tokens for ever. Type, channel, start, stop, line, column and text of each token are those of its stretch. The reference gives exactly one answer, and if no rule can go on for ever without consuming, the lexer gives it for every n.", "quantifier": "all lexer grammars with greedy rules that match no empty text, pass the same built-in commands on every path and name existing modes and proper types; all texts of ordinary characters (code points or UTF-8), all caches left by earlier lexing that did not overflow, every number of tokens", "why_tests_cant": "The number of texts, modes stacks and cache histories is unbounded, and a wrong interplay of two commands (more after a channel, a mode left on the stack at an error) shows only in combinations.", "anchors": ["src/lexer.rs: next_token, emit, emit_eof, more, skip, push_mode, pop_mode", "src/lexer_atn_simulator.rs: match_token, accept, fail_or_accept", "src/lexer_action.rs: execute", "src/lexer_action_executor.rs"]}
{"id": "C99", "title": "A text is accepted exactly if it is in the language of lexer and parser grammar", "statement": "Every text has a reading by the lexer grammar (longest match, rule order, shortest match of non-greedy rules, commands), ending in the end-of-input token, and only one if each rule is greedy or an opening, as few characters as possible, and a closing. Whatever grammar (left recursion and predicates included), decisions and error strategy: when a parser reads the tokens of the lexer and ends without telling of an error, what it read on its channel is in the language of its rule. With the bail-out strategy and a start rule that ends with EOF, lexing and parsing come back on every text, normally if the types of the tokens on the channel are a sentence, with the cancellation error if not.", "quantifier": "all texts of ordinary characters; lexer grammars of C106 (those of C98 and those with non-greedy decisions); for acceptance all parser grammars, modes, DFA histories and strategies; for the decision the parser grammars of C88 in the LL modes, first token on the channel", "why_tests_cant": "It is a statement about all texts at once, those accepted and those refused, and any earlier use of the shared caches of both lexer and parser.", "anchors": ["src/lexer.rs: next_token", "src/common_token_stream.rs: CommonTokenStream", "src/parser_atn_simulator.rs: adaptive_predict", "src/error_strategy.rs: BailErrorStrategy", "templates/Rust.stg"]}
{"id": "C100", "title": "A loop of operators goes on exactly while the next operator binds tightly enough", "statement": "In a left-recursive rule for operators, called with some minimum level, the decision whether the expression goes on depends on nothing but the next token: a prediction that returns chooses one more operator if the next token is an operator whose level is at least the minimum, and otherwise never: it chooses the end of the expression, or reports that neither is possible. Calls nested at other levels, the rules in progress, the prediction mode, user predicates and what earlier predictions left in the shared DFA do not change that.", "quantifier": "all grammars with a rule of that form (any number of operators and levels, operators being tokens, ranges or sets; tokens that may follow an expression are not operators, and no user predicates stand between the end of an expression and the next token), all levels, all token streams and histories of them, all DFA histories (other streams, levels, modes, hash functions), while the DFA has not overflowed its 32-bit state numbers", "why_tests_cant": "Which configurations survive the precedence filter depends on the level, on the callers and on which start states and edges earlier predictions, at other levels, have cached; tests exercise a few expressions from an empty cache.", "anchors": ["src/parser_atn_simulator.rs: adaptive_predict, apply_precedence_filter, precedence_transition, closure_work, compute_target_state", "src/dfa.rs: get_precedence_start_state, set_precedence_start_state", "src/semantic_context.rs: eval_precedence"]}
{"id": "C101", "title": "Operators have the operands that precedence and associativity give them", "statement": "When a generated parser parses an input without reporting an error, every operation in its tree has the operands the grammar's order of operators prescribes: what stands at the left edge of its right operand binds at least as tightly as the operator asks for (more tightly if it associates to the left, at least equally if to the right), and what stands at the right edge of its left operand would not have taken the operator for its own. This covers prefix, suffix, binary and ternary operators. An expression, written as a sequence of operands and operators, has exactly one such tree, so the tree is determined.", "quantifier": "all grammars with a rule of prefix, suffix, binary and ternary operators as the tool rewrites it (any number of operators, levels and associativities, any primaries, among them parenthesised expressions, and any other rules), all generated code fitting such a grammar, all token sequences, all histories of the DFA of the operator loop, all other decisions, predicates and error strategies", "why_tests_cant": "How an operator is attached depends on the level passed through all the calls in progress, on the next token and on what the DFA has cached from other expressions; a test shows one expression, while the nesting is unbounded.", "anchors": ["src/parser.rs: enter_recursion_rule, push_new_recursion_context, unroll_recursion_context, precpred", "src/parser_atn_simulator.rs: adaptive_predict, apply_precedence_filter", "templates/Rust.stg: LeftRecursiveRuleFunction", "tests/gen/simplelrparser.rs: a_rec"]}
{"id": "C102", "title": "A printed token shows what it is", "statement": "Printing a token gives one line, [@number,start:stop='text',<type>channel,line:column], with line breaks and tabs of the text shown as backslash and letter. Whatever the text contains, tokens printed alike have the same number, place, type, positive channel, line and column, and texts that are shown alike (the same text, if texts have no backslashes; with backslashes different texts can be printed alike). Copies of a token answer every question like the original and are printed like it.", "quantifier": "all tokens: any field values, negative ones included, and any text, also texts that contain quotes, brackets and things that look like the rest of a printed token", "why_tests_cant": "That nothing in a text can be mistaken for the fields behind it is a statement about all pairs of texts and numbers; tests print a few tokens with harmless texts.", "anchors": ["src/token.rs: Display for GenericToken, Clone for GenericToken, Token::to_owned, get_text, set_token_index"]}
{"id": "C103", "title": "Equality and hashing agree, and stored hashes never show", "statement": "Two call-stack contexts, however they were made (constructors, merges with any merge cache, parse stacks), are equal exactly if they stand for the same structure, and then they have the same hash; the comparisons of addresses and stored hashes inside merging do not change its results. Contexts, predicates, configurations, configuration sets, DFA states, lookup keys and action lists that are equal have the same hash, so hash maps find them. Configurations of a lexer or parser are equal exactly if they agree in state, alternative, stacks, predicates, filter flag and (in a lexer) actions and non-greedy flag. (An array whose hash was not yet computed is different from the same one with its hash; the crate lets none out.)", "quantifier": "all contexts of any size and depth with one parent for each return state, all histories of merges and merge caches, all hash functions, every way in which contexts may share addresses; the hash law for all values whatsoever", "why_tests_cant": "A stale or missing hash shows only when two equal values arise in different ways and meet in one map; the ways are unbounded, and which hashes collide depends on the hash function.", "anchors": ["src/prediction_context.rs: PartialEq, Hash, calc_hash, alloc, new_array, new_singleton, merge", "src/atn_config.rs: PartialEq and Hash for ATNConfig", "src/atn_config_set.rs: Key, local_hash_key, PartialEq and Hash for ATNConfigSet", "src/dfa_state.rs: PartialEq and Hash for DFAState", "src/lexer_action_executor.rs: Hash, new_copy_append", "src/semantic_context.rs: derived Hash"]}
{"id": "C104", "title": "A visitor computes what its methods say", "statement": "Visiting a tree with a visitor whose methods visit other nodes themselves (visit, visit_children, visit_node), read their results and change the visitor's state, ends in the state and with the result the methods say, as if results were handed back directly: nothing that nested or earlier visits left in the temporary storage gets into a result, and the storage is cleared. If methods only visit nodes below their own, visiting comes back. An evaluator that visits the children of each node and combines their results computes the value of the tree; a visitor that overrides no rule method aggregates the values of the leaves.", "quantifier": "all trees without plain contexts, all visitors: any state, results, aggregation and stop condition, any methods, any pattern of visits", "why_tests_cant": "All results go through one shared place, so that an error shows only for particular patterns of nested visits; the patterns are as many as visitors and trees.", "anchors": ["src/tree.rs: ParseTreeVisitorCompat::{visit, visit_children, temp_result}, ParseTreeVisitor for T, VisitChildren::visit_node", "templates/Rust.stg: VisitorFile, VisitorDispatchMethod", "tests/gen/visitorcalcvisitor.rs"]}
{"id": "C105", "title": "Non-greedy lexer rules lose nothing but longer texts", "statement": "Also if some decisions of a lexer grammar are non-greedy: a token is a text of one of the rules and has its type; a rule that matches more, or an earlier rule that matches the same text, is passed over only if it is non-greedy and matches a shorter text, too; what a greedy rule matches is never lost to the non-greedy rules beside it; the token of a rule made of an opening, any number of characters of a set with a non-greedy loop, and a closing is the shortest text of the rule at that place, so that it ends at the first closing; and a token recognition error is reported only where no rule matches anything. What is in the cache does not matter.", "quantifier": "all lexer grammars of the class of C33 with any greedy and non-greedy decisions, all texts, all positions and modes, all cache contents that earlier matches left", "why_tests_cant": "Non-greedy decisions make the lexer drop configurations, and which ones depends on the order in which closures are built, on other rules and on what a cached state was computed from; a test sees one grammar and a few texts.", "anchors": ["src/lexer_atn_simulator.rs: LexerATNSimulator::{get_reachable_config_set, closure, capture_sim_state, fail_or_accept}", "src/atn_config.rs: check_non_greedy_decision"]}
{"id": "C106", "title": "The tokens of a text under a grammar with non-greedy rules", "statement": "Also if some rules are non-greedy, the tokens a lexer returns for a text, with the reports of what matches nothing, are those of a reference that knows only rules and commands: at each place it takes a match as C105 describes, obeys the commands of its rule, and goes on behind it; where nothing matches it reports the characters looked at. If every rule is greedy, or an opening, as few characters of a set as possible, and a closing, the reference has exactly one answer, and the lexer gives it, for every number of tokens asked for. If all decisions are greedy, the answer is that of C98.", "quantifier": "all lexer grammars of the class of C98 with any greedy and non-greedy decisions, all texts, all numbers of tokens, all cache contents that earlier matches left", "why_tests_cant": "The tokens of a text depend on each other through positions, modes and the cache, and non-greedy rules make the choice of each depend on what other rules match; a test sees a few texts.", "anchors": ["src/lexer.rs: BaseLexer::next_token", "src/lexer_atn_simulator.rs: LexerATNSimulator::{match_token, get_reachable_config_set, closure}", "src/lexer_action_executor.rs: LexerActionExecutor::execute"]}
{"id": "C107", "title": "A lexer's console says where a text matches nothing, and nothing else", "statement": "For each stretch of the text that matches no rule, in the order of the text, each console listener of the lexer prints once the line and column where the stretch begins and its text, and each listener of the user is told the same; a console prints nothing else, so it stays silent exactly if everything matches. If every rule is greedy or an opening, as few characters as possible, and a closing, what is printed depends only on text, grammar and listeners, not on what was lexed before. If no rule of the lexer makes end-of-input tokens itself, the tokens, the skipped stretches and the reported ones together are the whole text, without gaps or overlaps; so if the console is silent and the parser tells of no error, all of the text is tokens and skipped stretches, and what the parser read of its channel is in the language of its rule. Each report is one line.", "quantifier": "all lexer grammars of C106, all texts of ordinary characters, all numbers of tokens asked for, all cache contents that earlier matches left, all listeners registered", "why_tests_cant": "It is about all texts, including those whose errors depend on what an earlier text left in the shared cache.", "anchors": ["src/lexer.rs: notify_listeners, next_token", "src/error_listener.rs: ConsoleErrorListener::syntax_error", "src/lexer_atn_simulator.rs: match_token"]}
