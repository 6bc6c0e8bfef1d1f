{"id": "C01", "title": "Literal matching at the cursor is exact prefix matching", "statement": "Asking a parser context whether a literal matches at its cursor returns the range [start, start+len(literal)) exactly when the literal is non-empty and the unread window of the source begins with it; otherwise it returns nothing. It never looks past the window end and never changes the context. It panics exactly when the window is not a valid UTF-8 slice of the source.", "quantifier": "every source string, every window (start,end), every literal", "why_tests_cant": "prefix/longer-than-window/empty/multibyte combinations are unbounded; tests sample a few ASCII literals", "anchors": ["src/parser_context.rs: ParserContext::matches_str, ParserContext::matches_str_at_offset"]}
{"id": "C02", "title": "Regex matching is anchored at the cursor", "statement": "A regex lookup succeeds exactly when the leftmost match of the pattern in the unread window begins at the window's first byte; the returned range is that match translated by the cursor, and it stays inside the window.", "quantifier": "every source, every window, every regex (as a leftmost-match finder that returns spans inside its haystack)", "why_tests_cant": "the set of regexes and windows is infinite; a single non-anchored match would silently skip input", "anchors": ["src/parser_context.rs: ParserContext::matches_regexp"]}
{"id": "C03", "title": "Line numbers count every line terminator once", "statement": "The line numbers reported for a range are one plus the number of line terminators (CRLF, LF, CR; CRLF counted once) before the start and before the end of the range, and the start line never exceeds the end line for an ordered range.", "quantifier": "every source and every ordered in-bounds range on character boundaries, including ranges that split a CRLF", "why_tests_cant": "mixed newline conventions and split CRLF positions form an infinite set", "anchors": ["src/parser_context.rs: ParserContext::get_lines"]}
{"id": "C04", "title": "Column numbers are computed without underflow and are exact", "statement": "For every ordered in-bounds range the reported start column is one plus the number of bytes since the last line terminator before the start; the end column is likewise exact whenever the range lies on one line, and in general is the maximum of the start column and the exact end column. No arithmetic underflow happens.", "quantifier": "every source and every ordered in-bounds range", "why_tests_cant": "the loop keeps three mutable counters with unsigned subtraction; only a proof over all newline layouts shows no underflow", "anchors": ["src/parser_context.rs: ParserContext::get_columns"]}
{"id": "C05", "title": "Error text carries file, line and column of the offending range", "statement": "An error reported for a range renders as 'Error: FILE@[L:C]: MESSAGE', collapsing equal line or column pairs to one number and otherwise printing 'first-last' in decimal.", "quantifier": "every file name, message, source and in-bounds range", "why_tests_cant": "formatting must be right for all numbers of digits and all collapsing combinations", "anchors": ["src/parser_context.rs: ParserContext::get_error_as_string, ParserContext::get_error_as_string_without_range", "src/matchers/error.rs: new_error_token, new_error_token_with_range"]}
{"id": "C06", "title": "Token text equals the matched source text on ASCII input, and not beyond", "statement": "For ASCII sources the text a token reports for a range is exactly the source bytes in that range. For sources with multi-byte characters this fails: there is a source and a successful literal match whose token reports text different from what was matched.", "quantifier": "every ASCII source and every in-bounds range; existence for the non-ASCII failure", "why_tests_cant": "ranges are byte based while text extraction is character based; all tests use ASCII", "anchors": ["src/source_range.rs: SourceRange::to_string", "src/token.rs: StandardToken::new", "adextopa_macros/src/lib.rs: derive_token"]}
{"id": "C07", "title": "An equality matcher yields one exact token or fails cleanly", "statement": "Executing an equality matcher with a fixed literal yields a token named after the matcher, covering exactly the literal at the cursor, with no children, no parent and no flags, when the literal is there; otherwise it fails. No other token changes and the only other effect is that a renamed matcher becomes visible under its name.", "quantifier": "every source, cursor, literal, state of the token store and scopes", "why_tests_cant": "must hold from any reachable state of tokens and variables", "anchors": ["src/matchers/equals.rs: EqualsPattern::_exec"]}
{"id": "C08", "title": "A regex matcher yields a token only for non-empty anchored matches", "statement": "Executing a regex matcher yields a token covering exactly the anchored match when it is non-empty, a zero-width skip when the anchored match is empty, and failure otherwise.", "quantifier": "every source, cursor, regex and state", "why_tests_cant": "infinite pattern and input space", "anchors": ["src/matchers/matches.rs: MatchesPattern::_exec"]}
{"id": "C09", "title": "Delimited sequences: first unescaped terminator wins and escapes are removed", "statement": "A sequence matcher with non-empty start and end delimiters succeeds on ASCII input exactly when the input begins with the start delimiter and a left-to-right scan, in which the escape string protects the byte after it, reaches an end delimiter inside the window. The outer range covers both delimiters, the inner range the raw body, and the token value is the body with escape strings removed.", "quantifier": "every ASCII source, every window, all delimiter and escape strings", "why_tests_cant": "index arithmetic over arbitrary mixtures of escapes and delimiters", "anchors": ["src/matchers/sequence.rs: SequencePattern::_exec"]}
{"id": "C10", "title": "Escaping round-trips through a sequence matcher", "statement": "Quoting any ASCII text (each quote and each backslash preceded by a backslash) and parsing it back with a quote/quote/backslash sequence matcher yields a token whose value is the original text and whose range is the whole quoted text, whatever follows it.", "quantifier": "every ASCII text and every ASCII continuation", "why_tests_cant": "round trip over all strings", "anchors": ["src/matchers/sequence.rs: SequencePattern::_exec", "src/script/v1/matchers/string.rs: ScriptString"]}
{"id": "C11", "title": "Sequence matchers panic on multi-byte text", "statement": "A sequence matcher whose start delimiter matches panics, rather than failing or succeeding, whenever the first character of the body is a multi-byte character that does not start the end delimiter or the escape string.", "quantifier": "every source of that shape and all delimiters", "why_tests_cant": "the tests contain no non-ASCII input", "anchors": ["src/matchers/sequence.rs: SequencePattern::_exec", "src/parser_context.rs: matches_str_at_offset"]}
{"id": "C12", "title": "Negation never consumes and inverts match results", "statement": "Not(m) yields a zero-width skip when m fails, fails when m yields a token, proxied children or a non-zero skip, passes errors through, and lets zero-width skips and control signals through unchanged; it never returns a token, so a double negation returns the same zero-width skip for a match and for a failure.", "quantifier": "every inner matcher, source, cursor and state", "why_tests_cant": "quantifies over all inner matchers", "anchors": ["src/matchers/not.rs: NotPattern::exec"]}
{"id": "C13", "title": "Optional never fails", "statement": "Optional(m) never reports plain failure: it turns failure into a zero-width skip and otherwise returns exactly what m returned, with the same effects.", "quantifier": "every inner matcher, source, cursor and state", "why_tests_cant": "quantifies over all inner matchers", "anchors": ["src/matchers/optional.rs: OptionalPattern::exec"]}
{"id": "C14", "title": "Discard consumes the same text but yields no token", "statement": "Discard(m) turns a token result into a skip by exactly the distance from the cursor to the end of the token, also inside break and continue payloads, unless the token tree contains error tokens, in which case it returns a token carrying exactly those errors in document order; failures and errors pass through.", "quantifier": "every inner matcher, source, cursor and state", "why_tests_cant": "quantifies over all inner matchers and token trees", "anchors": ["src/matchers/discard.rs: DiscardPattern::_exec, collect_errors, skip_token"]}
{"id": "C15", "title": "Alternatives are ordered choice", "statement": "A switch returns the result of the first alternative that yields a kept token, proxied children, a positive skip, a control signal or an error; alternatives that fail, yield a zero-width skip or yield a lookahead token are passed over and all alternatives are tried from the same cursor; if none applies the switch fails.", "quantifier": "every list of alternatives, source, cursor and state", "why_tests_cant": "quantifies over arbitrary alternatives and their number", "anchors": ["src/matchers/program.rs: ProgramPattern::_exec, handle_token, finalize_program_token"]}
{"id": "C16", "title": "Sequencing: each pattern starts where the previous consuming one ended", "statement": "A program runs its patterns in order, each one starting at the end of the last consumed token or skip, never runs a pattern after one failed, fails as a whole when a pattern fails, and on success its children are the kept tokens of its patterns in order.", "quantifier": "every list of patterns, source, cursor and state", "why_tests_cant": "quantifies over arbitrary patterns and their number", "anchors": ["src/matchers/program.rs: ProgramPattern::_exec, add_token_to_children, handle_skip"]}
{"id": "C17", "title": "A program token spans its children", "statement": "The outer and inner ranges of a token produced by a program whose patterns all consume contain the outer and inner ranges of every ordinary child; when every pattern returned an ordinary token that is not an error, both ranges are the smallest ones with that property.", "quantifier": "every program, source, cursor and state", "why_tests_cant": "range bookkeeping uses a usize::MAX sentinel and min/max updates over unbounded child lists", "anchors": ["src/matchers/program.rs: contain_source_range, finalize_program_token"]}
{"id": "C18", "title": "Children point back to their parent", "statement": "Every child of a token returned by a program or loop (also inside a break) has that token as its parent.", "quantifier": "every grammar built from the library's matchers, source and state", "why_tests_cant": "parents are set by mutation of shared tokens; only an aliasing argument shows later matches do not overwrite them", "anchors": ["src/matchers/program.rs: add_token_to_children", "src/token.rs: Token::set_parent"]}
{"id": "C19", "title": "Matching does not disturb earlier tokens", "statement": "Executing any matcher changes no token that existed before the execution - neither text, ranges, parent, children, attributes nor flags - and returns none of them, provided user closures obey the same rule.", "quantifier": "every such matcher, source, cursor, scope contents and token store", "why_tests_cant": "tokens are shared mutable references; absence of aliasing bugs needs an invariant over all executions", "anchors": ["src/matchers/*.rs: exec", "src/token.rs"]}
{"id": "C20", "title": "Results never depend on how much fuel or how deep recursion runs", "statement": "If an execution finishes, its outcome is unique: the same matcher on the same source, cursor and state always gives the same outcome.", "quantifier": "every matcher, source, cursor and state", "why_tests_cant": "determinism over all executions", "anchors": ["src/matcher.rs: Matcher::exec"]}
{"id": "C21", "title": "Scope stacks are balanced", "statement": "Executing any matcher writes only to innermost scopes: every scope below the innermost one of every stack is what it was, so the depth of every stack is as it was (an empty stack may receive its first scope), and whatever runs in a scope of its own leaves the stack exactly as before. User closures are assumed to obey this.", "quantifier": "every matcher, source, cursor and state", "why_tests_cant": "quantifies over all nested scope-opening matchers and failure points", "anchors": ["src/matchers/set_scope.rs: SetScopePattern::exec", "src/scope_context.rs: ScopeContext::push, pop, set"]}
{"id": "C22", "title": "Variable lookup is innermost-first and updates are local", "statement": "Setting a variable makes later lookups of it return the new value, leaves other names alone, only touches the innermost scope, and popping that scope restores every earlier binding.", "quantifier": "every scope stack, names and values", "why_tests_cant": "law over all histories of operations", "anchors": ["src/scope.rs: Scope", "src/scope_context.rs: ScopeContext"]}
{"id": "C23", "title": "A stored token can be fetched and re-located", "statement": "After Store(name; m) produced a token, fetching 'name.captured_value', 'name.matched_value', 'name.start', 'name.end', 'name.captured_start', 'name.captured_end', 'name.range' and 'name.captured_range' yields that token's current value, texts, offsets and 'start..end' ranges, fetching the bare name or any other sub-name panics, and pinning a matcher at the fetched range runs it on exactly that range.", "quantifier": "every matcher that yields a token, every source and state", "why_tests_cant": "decimal printing and parsing must round trip for all offsets", "anchors": ["src/matchers/store.rs: StorePattern::exec", "src/matchers/fetch.rs: fetch_value", "src/matchers/pin.rs: parse_offset, PinPattern::_exec"]}
{"id": "C24", "title": "A failed store destroys the previous value", "statement": "When Store(name; m) fails, the variable no longer holds its previous value: it now refers to the store matcher itself.", "quantifier": "every state with a value for name and every failing m that does not itself bind name", "why_tests_cant": "requires reasoning about every state", "anchors": ["src/matcher.rs: Matcher::before_exec", "src/matchers/store.rs"]}
{"id": "C25", "title": "References resolve dynamically and unknown references are errors", "statement": "Executing a reference behaves exactly like executing the matcher bound to its name in the passed scope; a name that is unbound or bound to a non-matcher yields a parse error, never a failure.", "quantifier": "every reference name, scope state, source and cursor", "why_tests_cant": "quantifies over all bound matchers", "anchors": ["src/matchers/ref.rs: RefPattern::_exec", "src/matchers/register.rs: RegisterPattern::exec"]}
{"id": "C26", "title": "Self-referential patterns never return", "statement": "A reference that resolves to itself before consuming input never finishes, for any source, no matter how much stack is available.", "quantifier": "every source, cursor and amount of resources", "why_tests_cant": "non-termination cannot be observed by a test", "anchors": ["src/matchers/ref.rs: RefPattern::_exec"]}
{"id": "C27", "title": "A loop performs at most end-start iterations and keeps matches in order", "statement": "A loop over the range a..b runs its body at most b-a times, each iteration starting where the previous one ended. A written range lo..hi gives these bounds; the end of an inclusive range lo..=hi is ignored.", "quantifier": "every loop body, bounds, source and state", "why_tests_cant": "unbounded bodies and inputs", "anchors": ["src/matchers/program.rs: ProgramPattern::_exec, get_range"]}
{"id": "C28", "title": "Loop minimum is not enforced when the body fails, and bounded loops cannot reach their minimum", "statement": "A loop with minimum n whose body fails after k>=1 collected tokens succeeds even when k<n; and a loop over a..b with b-a<a whose body never fails and never breaks always fails.", "quantifier": "every literal body, bounds and sources of that shape", "why_tests_cant": "the tests only use unbounded or zero-minimum loops", "anchors": ["src/matchers/program.rs: ProgramPattern::_exec, finalize_program_token", "src/script/v1/matchers/repeat_specifier.rs: get_repeat_specifier_range"]}
{"id": "C29", "title": "A zero-or-more loop fails on zero matches", "statement": "A loop with minimum zero whose first pattern fails at the first iteration fails rather than succeeding with nothing.", "quantifier": "every body whose first pattern fails, every source and state", "why_tests_cant": "tests only cover loops that match at least once", "anchors": ["src/matchers/program.rs: finalize_program_token"]}
{"id": "C30", "title": "Loops whose body succeeds without consuming do not stop", "statement": "An unbounded loop whose body keeps succeeding with a zero-width skip does not finish within any number of iterations below 2^64-1.", "quantifier": "every such body, source and state", "why_tests_cant": "non-termination cannot be observed by a test", "anchors": ["src/matchers/program.rs: ProgramPattern::_exec"]}
{"id": "C31", "title": "Repeating a literal takes the longest run", "statement": "An unbounded loop over a literal consumes exactly the maximal number of consecutive copies of the literal at the cursor and returns one child per copy, each covering its copy; it fails when there is none.", "quantifier": "every literal, source, cursor and state", "why_tests_cant": "unbounded number of repetitions", "anchors": ["src/matchers/program.rs: ProgramPattern::_exec", "src/matchers/equals.rs"]}
{"id": "C32", "title": "Break leaves the named loop and keeps its contents", "statement": "A break signal with an empty or the loop's own name ends the loop, which then returns the tokens collected so far including the payload; with another name it propagates outward carrying the collected tokens; in a body that collected nothing it degrades to plain failure.", "quantifier": "every loop, body, source and state", "why_tests_cant": "quantifies over all nestings", "anchors": ["src/matchers/break.rs: BreakPattern::exec", "src/matchers/program.rs: ProgramPattern::_exec"]}
{"id": "C33", "title": "Continue is not propagated", "statement": "A continue signal for an outer loop is turned into an ordinary token by an intermediate program and into a break by a switch.", "quantifier": "every body producing such a signal", "why_tests_cant": "no test exercises continue through nesting", "anchors": ["src/matchers/program.rs: ProgramPattern::_exec"]}
{"id": "C34", "title": "Mapping combinators touch only what they are documented to touch", "statement": "Map applies its success function to tokens and proxied children only, its failure function to failures only, and lets skips and control signals through; the fatal-if/assert-if families turn a match into a fatal error or an error token and a non-match into a zero-width skip (and the negated forms the reverse), with the message located at the match.", "quantifier": "every inner matcher, message, source and state", "why_tests_cant": "quantifies over all inner matchers", "anchors": ["src/matchers/map.rs: MapPattern::exec", "src/matchers/fatal_if.rs", "src/matchers/fatal_if_not.rs", "src/matchers/assert_if.rs", "src/matchers/assert_if_not.rs"]}
{"id": "C35", "title": "Catch only intercepts failures", "statement": "Catch(m) returns what m returned when m succeeded; its handler decides whenever m failed, for a plain failure just as for a parse error.", "quantifier": "every inner matcher and handler", "why_tests_cant": "quantifies over all inner matchers", "anchors": ["src/matchers/catch.rs: CatchPattern::_exec"]}
{"id": "C36", "title": "Tokenizing hoists every nested error to the root", "statement": "After tokenizing succeeds, no token below the root has an error token among its children, every error token that was anywhere below the root is a direct child of it exactly once, the errors that were nested come after the root's own children, and no token is added, lost or otherwise reordered.", "quantifier": "every grammar, source and state (user callbacks keep trees), and every finite acyclic token tree", "why_tests_cant": "holds for trees of any shape and depth", "anchors": ["src/parser_context.rs: ParserContext::tokenize, collect_errors"]}
{"id": "C37", "title": "Tokenize returns a token exactly for token-like results", "statement": "Tokenizing returns a token exactly when the grammar yields a token or proxied children, or a token as the direct payload of a break or continue; skips, proxied children inside a break or continue, and other signals are failures; parse errors are passed on.", "quantifier": "every grammar and source", "why_tests_cant": "quantifies over all grammars", "anchors": ["src/parser_context.rs: ParserContext::tokenize"]}
{"id": "C38", "title": "Debug output does not change parsing of ASCII sources", "statement": "With an ASCII source and a grammar whose contexts stay inside the source (no Pin, no error tokens), wrapping consuming matchers in Debug or raising the debug level changes nothing: result, tokens, panics and non-termination are the same. With any source and grammar it can only add a panic of slicing or overflow; with multi-byte sources, or with a Pin that leaves the source, it does turn a success into a panic. The shown text is the first bytes of the window, at most as many as asked for.", "quantifier": "every grammar, source, debug level and state; existence for the failures", "why_tests_cant": "quantifies over all grammars", "anchors": ["src/matchers/debug.rs: DebugPattern::exec", "src/parser_context.rs: ParserContext::debug_range"]}
{"id": "C39", "title": "The visitor sees every token once, parents first", "statement": "Visiting a token tree calls exactly one hook per token, in document pre-order, choosing the first hook registered under the token's name or else the '*' hook, and stops at the first error.", "quantifier": "every token tree and hook table", "why_tests_cant": "trees and hook tables of any shape", "anchors": ["src/token_visitor.rs: TokenVisitor::visit"]}
{"id": "C40", "title": "Repeat specifiers denote the documented half-open ranges", "statement": "'*', '+', '{n}', '{n,}' and '{n,m}' are read as 0..MAX, 1..MAX, 0..n, n..MAX and n..m for all decimal n and m, and m<n is rejected.", "quantifier": "every decimal numeral that fits usize", "why_tests_cant": "numeral parsing for all digits", "anchors": ["src/script/v1/matchers/repeat_specifier.rs: get_repeat_specifier_range"]}
{"id": "C41", "title": "Script bodies with syntax errors compile", "statement": "There are scripts whose parse reports errors but whose compilation returns success, so a successful compile does not mean a valid script.", "quantifier": "existence, and the general rule that recorded parse errors never influence the returned value when building finishes", "why_tests_cant": "tests check only scripts where building also fails", "anchors": ["src/script/v1/parser.rs: build_matcher_from_tokens, compile_script"]}
{"id": "C42", "title": "Named captures always get the same name", "statement": "The name written in a captured pattern is ignored: every named capture is called 'Name'.", "quantifier": "every captured pattern token", "why_tests_cant": "the tests encode the wrong value", "anchors": ["src/script/v1/parser.rs: construct_matcher_from_pattern"]}
{"id": "C43", "title": "Plain alias assignments never resolve", "statement": "An assignment whose right side is a bare identifier binds the name to a reference to the text of the whole assignment.", "quantifier": "every such assignment token", "why_tests_cant": "no test resolves an alias", "anchors": ["src/script/v1/parser.rs: build_matcher_from_tokens"]}
{"id": "C44", "title": "A named definition loses its modifiers after its first use", "statement": "Using a script definition that carries attributes or a repeat specifier rebinds its name to the bare pattern, so a later use of the same definition behaves differently.", "quantifier": "existence, and the rule that executing a custom-named matcher rebinds its name to that matcher", "why_tests_cant": "tests use each definition once", "anchors": ["src/matcher.rs: Matcher::before_exec", "src/script/v1/parser.rs"]}
{"id": "C45", "title": "Ranges stay in bounds and ordered without pins", "statement": "In a grammar without pinned matchers and error tokens, and with user callbacks that keep to the window and to the tokens they are given, every token in the result has an ordered inner range inside its ordered outer range inside the context's window; with UTF-8 text and literals every such range can be sliced out of the text without a panic.", "quantifier": "every such grammar, source and state", "why_tests_cant": "invariant over all executions", "anchors": ["src/matchers/*.rs", "src/source_range.rs"]}
{"id": "C46", "title": "Consumption is monotone without pins", "statement": "In such a grammar a kept token never starts before the cursor and never ends before it, skips are never negative and never leave the window, and at every level of the result the children come one after the other inside their parent.", "quantifier": "every such grammar, source and state", "why_tests_cant": "invariant over all executions", "anchors": ["src/matchers/program.rs", "src/matchers/discard.rs"]}
{"id": "C47", "title": "Grammars without references terminate", "statement": "Every grammar without references finishes on every input; when in addition every loop body starts with a pattern that consumes or fails, it finishes after a number of loop iterations bounded by the source length.", "quantifier": "every such grammar and source", "why_tests_cant": "termination over all inputs", "anchors": ["src/matchers/program.rs: ProgramPattern::_exec"]}
{"id": "C48", "title": "Uncaptured patterns are discarded and modifiers nest in a fixed order", "statement": "In a compiled script, a pattern outside parentheses is wrapped in Discard outermost, the outer ?/! next, then the repetition, then the inner ?/!, then the pattern itself.", "quantifier": "every combination of modifiers", "why_tests_cant": "all combinations", "anchors": ["src/script/v1/parser.rs: construct_matcher_from_pattern_definition"]}
{"id": "C49", "title": "Script compilation can panic", "statement": "There are scripts on which compilation panics instead of returning an error: an invalid regex, an empty sequence delimiter and a string literal with a multi-byte character.", "quantifier": "existence; plus every string literal whose body starts with a multi-byte character", "why_tests_cant": "tests only contain well-formed ASCII scripts", "anchors": ["src/script/v1/parser.rs: construct_matcher_from_inner_definition", "src/matchers/sequence.rs"]}
{"id": "C50", "title": "Files that import each other in a circle never compile", "statement": "Compiling a file whose first statement imports the file itself, or the first of a set of files that import each other this way, never returns, whatever the store, the nesting of imports and the work allowed per file.", "quantifier": "every file name and amount of resources", "why_tests_cant": "non-termination cannot be observed by a test", "anchors": ["src/script/v1/parser.rs: build_matcher_from_tokens, compile_script_from_file"]}
{"id": "C51", "title": "Results are proper trees", "statement": "In the tree of any token returned by executing a matcher no token occurs twice, and no error token has children, as long as user callbacks given such trees return such trees.", "quantifier": "every grammar, source, state and every such user callback", "why_tests_cant": "Sharing or a cycle would need one of infinitely many grammars and states; a cycle would make the visitor and error collection loop.", "anchors": ["src/matchers/program.rs: ProgramPattern::add_token_to_children", "src/matchers/discard.rs: DiscardPattern::collect_errors", "src/token.rs"]}
{"id": "C52", "title": "Only announced names are assigned", "statement": "An execution changes a variable only to a value that some Store, Register or custom-named matcher of the grammar, or of a matcher reachable through the scopes, assigns to that name; every other variable keeps its value.", "quantifier": "every grammar, source, state and set of permitted assignments", "why_tests_cant": "quantifies over all grammars, references and states; a test sees one assignment pattern", "anchors": ["src/matcher.rs: Matcher::before_exec", "src/matchers/store.rs: StorePattern::exec", "src/matchers/register.rs: RegisterPattern::exec"]}
{"id": "C53", "title": "A script compiles to what its tokens say", "statement": "Compilation succeeds exactly when the parse yields a Script token whose tokens, read one after the other in document order, have a meaning as name, definitions, imports and patterns; the result is the program of those patterns in a scope with those definitions.", "quantifier": "every script source, file system and state", "why_tests_cant": "an equivalence over all token trees, in both directions", "anchors": ["src/script/v1/parser.rs: build_matcher_from_tokens, compile_script"]}
{"id": "C54", "title": "Executions do not depend on other contents of the store", "statement": "Running a grammar in a store that already holds other tokens and scope contexts does exactly what it does without them: it finishes, panics or runs forever alike, and results, tokens and scopes are the same up to their addresses; the name of the context does not matter either.", "quantifier": "every grammar, source, context and older contents, for user code that has this property", "why_tests_cant": "quantifies over all older contents and all grammars", "anchors": ["src/parser_context.rs: ParserContext", "src/scope_context.rs: ScopeContext", "src/matcher.rs: Matcher::exec"]}
{"id": "C55", "title": "ProxyChildren offers a token's children in its place", "statement": "ProxyChildren(m) returns a token of m, directly or as the payload of a break or continue, as proxied children and everything else, including panics and non-termination, exactly as m did, with the same effects.", "quantifier": "every matcher, source, context and state", "why_tests_cant": "tests cover a token and a failure of one inner matcher", "anchors": ["src/matchers/proxy_children.rs: ProxyChildrenPattern::_exec"]}
{"id": "C56", "title": "ExpandRange widens the inner range to the outer one", "statement": "ExpandRange(m) wraps a token of m into a new token whose inner and outer ranges are the outer range of that token and returns it as proxied children; proxied children get their inner range set to their outer one and nothing else changed; everything else is returned as it is.", "quantifier": "every matcher, source, context and state", "why_tests_cant": "tests cover one sequence", "anchors": ["src/matchers/expand_range.rs: ExpandRange::_exec"]}
{"id": "C57", "title": "SetScope runs its matcher in the given scope or in a new one of the parser", "statement": "SetScope(scope, m) does exactly what m does in that scope, whichever scope was passed; SetScope(m) does what m does in a new empty scope on top of the scopes of the parser context, not of the passed scope, and removes it afterwards also on failure and error.", "quantifier": "every matcher, scope, source, context and state", "why_tests_cant": "all scopes and results", "anchors": ["src/matchers/set_scope.rs: SetScopePattern::_exec"]}
{"id": "C58", "title": "Register binds every matcher under its name, the last one wins", "statement": "Register always returns a zero-width skip; afterwards every name carried by one of its matchers is bound to the last of them in the passed scope, and no other name, scope or token is changed. Registering with a parser context does the same, and the matcher is found again under its name.", "quantifier": "every list of matchers and state", "why_tests_cant": "one matcher in the test", "anchors": ["src/matchers/register.rs: RegisterPattern::_exec"]}
{"id": "C59", "title": "Storing text, Null, Fetch and Break do only what they say", "statement": "Store(name, text) returns a zero-width skip and binds the name to the text in the passed scope, changing nothing else; Null and Fetch return a zero-width skip and change nothing; Break returns the break signal without payload and changes nothing.", "quantifier": "every name, text, source, context and state", "why_tests_cant": "absence of other effects", "anchors": ["src/matchers/store.rs: StorePattern::_exec", "src/matchers/null.rs", "src/matchers/fetch.rs", "src/matchers/break.rs"]}
{"id": "C60", "title": "Every written pattern and script compiles to the matcher it stands for", "statement": "Describe the script language from the reader's side: patterns with capture, signs, core (text, reference, sequence, regex, switch, program), attributes and repetition; scripts with comments, an optional head of attributes and statements (other name, definition, import), and patterns. For every such pattern or script that has no fault (C64) and every way of writing it down (any blanks, comments, escapes), the grammar accepts the text and the compilation yields exactly the matcher and the definitions that the description assigns to it: the last definition of a name counts, the script is called by its name attribute or else as asked for.", "quantifier": "every pattern and script of any nesting and length, every way of writing it in ASCII, every place in a source, every state", "why_tests_cant": "a handful of fixed scripts in the tests; nesting, blanks, escapes and their combinations are unbounded", "anchors": ["src/script/v1/parser.rs: construct_matcher_from_pattern, build_matcher_from_tokens, compile_script", "src/script/v1/matchers/*.rs"]}
{"id": "C61", "title": "Files that import each other without circles compile, and every name means what its file says", "statement": "If a file contains a written script without faults and its imports lead, without circles, to files of that kind that have the names imported from them, then compiling it succeeds for every sufficient depth and fuel in every state. Each file's definitions are in a scope of its own that did not exist before: a name is bound to what the last statement for it says; an imported definition runs in the scope of its file and its token is renamed; an imported `_` is the whole script. Older tokens and scopes are not changed.", "quantifier": "every file system, every finite import tree of any depth, every script of every file, every state", "why_tests_cant": "one import of one file in the tests; trees of files and clashes of names are unbounded", "anchors": ["src/script/v1/parser.rs: build_matcher_from_tokens (ImportStatement), compile_script_from_file_internal"]}
{"id": "C62", "title": "Broken scripts: patterns are dropped without an error, heads without version are passed over, other errors are not named", "statement": "After a head with a valid version, patterns that are followed by anything that is no pattern are all dropped and the compilation succeeds with the definitions of the head alone. Without a head the same text is refused. A head without version attribute is passed over with all its definitions while the patterns after it are compiled if they have no fault. A version that is not a number, or a text of blanks and comments only, is refused. Whenever such a script is refused, the only error reported has no range and one of two fixed texts that do not say what is wrong.", "quantifier": "every head, every list of patterns written in any way, every text after them (ASCII), every state", "why_tests_cant": "the tests only hold a few well-formed scripts; silent loss needs all continuations", "anchors": ["src/script/v1/matchers/script.rs", "src/script/v1/matchers/pattern_scope.rs", "src/script/v1/matchers/adextopa_scope.rs: MapAdextopaScope closure", "src/script/v1/parser.rs: build_matcher_from_tokens, compile_script"]}
{"id": "C63", "title": "An attribute value without quotes is refused with its place, wherever it is", "statement": "Take any place in a script where the value of an attribute is expected: in the head, in a definition, in a pattern, in a pattern nested in switches, programs and captures. If what stands there is not quoted, the compilation ends with exactly one error. Its text is the message about unquoted values with the line and columns of the value, and its range is exactly the value: the characters up to the next blank or quote.", "quantifier": "every script up to that place, every value without quotes, every text after it (ASCII), every state", "why_tests_cant": "no test has an unquoted value below the top level; a fatal error passes through every optional, loop and switch of the grammar", "anchors": ["src/script/v1/matchers/attribute.rs", "src/script/v1/matchers/pattern_scope.rs", "src/script/v1/matchers/adextopa_scope.rs", "src/matchers/fatal_if.rs"]}
{"id": "C64", "title": "A written script with a fault is refused with the reason of the first fault, or the compilation panics", "statement": "A written pattern has a fault if it or a pattern in it is an empty text, a sequence with empty start or end, a regular expression that does not compile, a number of repetitions that is no usize, or a range upside down. The grammar accepts such patterns like all others. The first fault in reading order (definitions before patterns, inner before repetition) ends the compilation: for an empty text, a number too large or a range upside down with exactly one error that gives the reason but always the place 1:1 and the range 0..0; for the others with a panic.", "quantifier": "every script of any nesting with any number of faults, every way of writing it in ASCII, every state", "why_tests_cant": "no test compiles a faulty pattern; which of several faults wins needs all combinations", "anchors": ["src/script/v1/parser.rs: construct_matcher_from_inner_definition, construct_matcher_from_pattern_definition, construct_matcher_from_pattern, build_matcher_from_tokens", "src/script/v1/matchers/repeat_specifier.rs: get_repeat_specifier_range"]}
{"id": "C65", "title": "What cannot be imported is blamed where it is asked for, and errors of imported files are passed on unchanged", "statement": "The first thing wrong with a written script decides how its compilation ends. An import in a script that comes from no file, a root import without a name and a name that the imported file does not have each give exactly one error about the place where it stands (the range of a name is exactly that of the name). Errors of an imported file become the errors of the importing script, unchanged and without a word about the import; panics go through as well. A file that cannot be found or read, or a path that cannot be joined, is a panic. For files whose imports do not lead in circles, each being missing, a written script or one of which only errors come, exactly one of two things holds: all is sound and the file compiles, or there is a first culprit in reading order, imported files gone through where they are imported, and the compilation ends as it demands for every depth and fuel from some bound on.", "quantifier": "every tree of files of any depth, every script of any nesting written in ASCII in any way, every list of names, every state", "why_tests_cant": "trees of imports and combinations of faults are unbounded; no test compiles a script with a failing import", "anchors": ["src/script/v1/parser.rs: build_matcher_from_tokens, compile_script, compile_script_from_str, compile_script_from_file_internal"]}
{"id": "C66", "title": "A compiled script makes of a text what its patterns say", "statement": "What patterns, definitions, repetitions, alternatives, sequences, references and whole scripts make of a text is given as a reading of the text alone: a tree of named nodes with ranges, captured text, value and attributes and the text that is left, or only the text that is left, or that it does not match, or that something unknown is referred to. Running the matcher of a pattern anywhere in a text gives exactly that reading: a token whose tree renders the nodes (names, ranges, values, attributes, parents), a skip of exactly the text passed over, a failure, or the error about the unknown reference; the definitions in the scopes are changed as the reading says. A script compiled from its text and then used to tokenize another text gives the tree of its reading; so does a file together with the files it imports, the definitions of each file being in a scope of its own.", "quantifier": "every pattern of any nesting, every set of definitions (recursive ones as well), every ASCII text, every place in it, every state", "why_tests_cant": "patterns, definitions and texts are unbounded; the tests check some trees of some patterns", "anchors": ["src/matchers/*.rs: exec", "src/script/v1/parser.rs: construct_matcher_from_pattern, compile_script", "src/parser_context.rs: tokenize"]}
{"id": "C67", "title": "A script in which references do not lead in circles without anything being taken ends with every text", "statement": "If every name of a script can be given a number such that what a definition refers to before it has surely taken something has a smaller number, then the script compiled alone has a reading of every text, and tokenizing the text ends, without a panic, with exactly that reading. References in circles after something has been taken (lists of lists) are allowed, as are loops without an upper bound, and definitions that make themselves known anew when used.", "quantifier": "every such script of any nesting, every way of writing it in ASCII, every ASCII text, every state", "why_tests_cant": "termination for all texts cannot be tested; the tests contain no recursive definition", "anchors": ["src/matchers/reference.rs: exec", "src/matchers/program.rs: exec", "src/script/v1/parser.rs: compile_script, build_matcher_from_tokens"]}
{"id": "C68", "title": "A script has at most one reading of a text, and tokenizing ends exactly with it or never", "statement": "What a pattern makes of a text is unique. Whatever fuel the execution is given, it has either not come to an end or ended with what the reading says: tokenizing an ASCII text with a compiled script (alone, or a file with all files it imports) never panics and never gives anything but the tokens of the unique reading; if there is no reading it never ends. In particular a script whose first pattern leads to definitions that lead to each other before anything else is done (left recursion) is accepted by the compiler and ends with no text at all.", "quantifier": "every script of any nesting, every way of writing it in ASCII, every ASCII text, every fuel, every state", "why_tests_cant": "that no text makes a script panic, and that a script runs forever with every text, cannot be observed by running it", "anchors": ["src/matchers/program.rs: exec", "src/matchers/reference.rs: exec", "src/parser.rs: tokenize", "src/script/v1/parser.rs: compile_script, build_matcher_from_tokens"]}
{"id": "C69", "title": "Every compilation comes to an end", "statement": "Whatever text is given as a script, parsing and compiling it comes to an end (with a matcher, with errors, or with a panic), within a nesting of executions of at most 18 times its length plus 24; so does compiling a file together with the files it imports when the files do not import each other in circles. This is an instance of a theorem about grammars with references by name: when references at the place where a matcher starts lead to names of ever smaller rank, when all other references come after something has surely been consumed, and when every loop consumes something, then the grammar ends at every place in every text, within a nesting that is linear in the text that is left.", "quantifier": "every text shorter than isize::MAX (valid UTF-8 or not), every environment of user closures that return, every state, every guarded grammar", "why_tests_cant": "termination for all texts cannot be tested; the grammar of scripts is recursive and has loops without bounds", "anchors": ["src/script/v1/matchers/*.rs", "src/script/v1/parser.rs: compile_script, compile_script_from_file, build_matcher_from_tokens", "src/matchers/program.rs: exec", "src/matchers/reference.rs: exec"]}
{"id": "C70", "title": "Results compare equal exactly when they have the same form and their tokens the same name and ranges", "statement": "Comparing two results (==) is true if and only if they are of the same form (token, proxied children, skip, break, continue, none, stop, failure, error) with equal numbers, names and errors, and with tokens that have equal names, captured ranges and matched ranges. It is an equivalence. The same grammar run twice, the second time among other tokens and scopes, gives results that compare equal, and tokens of one source that compare equal carry equal texts. But children, values, attributes and flags are not compared: there are grammars with different numbers of tokens whose results compare equal.", "quantifier": "every two results in any two stores; every grammar, context and store for the repeated run", "why_tests_cant": "the tests use == to compare results and take it for equality of trees; what it leaves out is never compared", "anchors": ["src/token.rs: PartialEq for dyn Token", "src/matcher.rs: MatcherSuccess, MatcherFailure", "src/parse_error.rs: ParseError", "src/source_range.rs: SourceRange"]}
{"id": "C71", "title": "Every token of a result can be printed, and the text is laid out by depth", "statement": "Printing a token follows its parents to find the indentation and its children to print them. The lines printed are exactly: header, ranges, value, raw value, name of the parent, attributes, children, in columns given by the numbers of ancestors and of surrounding tokens. In every execution parents are older than their children, so nobody is their own ancestor and every token of a result, also after tokenizing has moved errors to the root, is printed in finite time. In a tree whose children know their parents a token d generations below the root starts in column 4 d. A token that is its own parent is never printed, and line breaks in values of nested tokens are printed with blanks added.", "quantifier": "every grammar, source, state and user code that keeps parents older; every tree for the layout; every way of printing attributes", "why_tests_cant": "that following parents ends cannot be tested; no test prints a tree", "anchors": ["src/token.rs: Debug for dyn Token", "src/matchers/program.rs: add_token_to_children", "src/parser.rs: tokenize"]}
{"id": "C72", "title": "The methods of tokens do what their names say", "statement": "Setting an attribute returns the old value and changes that attribute only; has_attribute and attribute_equals agree with reading it. The value of a token is the attribute __value, else the value set, else the captured text; setting the empty text takes a set value back. Flags are sets of bits: enabling adds, disabling removes, and asking for several flags asks whether any of them is set. Children are found by name or regular expression, the first in order; a child added is the last to be found. Looking for one of a list of names is looking with the regular expression ^(a|b|...)$. Setting a text changes that text only. A range is shown as its ends in decimal.", "quantifier": "every token, name, value, set of flags of a byte, store and regular expression", "why_tests_cant": "the tests call most of these methods never or once; which of several matching children is found and what empty values do is not tested", "anchors": ["adextopa_macros/src/lib.rs: token_derive", "src/token.rs: has_attribute, find_child, find_child_fuzzy, has_child", "src/matchers/pin.rs: Token for PinToken"]}
{"id": "C73", "title": "In every execution tokens carry the text of their ranges", "statement": "Whatever is matched, collected, widened, discarded, expanded or moved, every token of a result and every token below it carries as captured and matched text what its captured and matched range stand for. On an ASCII source these are exactly the pieces of the source between the ends of the ranges, also after tokenizing.", "quantifier": "every grammar, source, state, and user code that keeps texts and ranges together; ASCII sources and windows in the source for the second half", "why_tests_cant": "ranges and texts are stored separately and updated in several places; tests check texts of a few tokens", "anchors": ["adextopa_macros/src/lib.rs: set_captured_range, set_matched_range", "src/matchers/program.rs: finalize_program_token, add_token_to_children", "src/matchers/discard.rs: skip_token", "src/matchers/expand_range.rs: exec"]}
{"id": "C74", "title": "Showing, replacing, adding and naming the parts of matchers", "statement": "The children a matcher shows are the matchers it executes or registers (a Ref shows none). Setting a child puts exactly that child in the place of the old one and keeps name, kind and standing of the matcher; the last setting wins and setting what is there changes nothing. It panics only for an index behind the last child and for matchers that do not support it, among them some that do show children. Patterns can be added to programs and registers only and come last. A name set is the name of the matcher, and counts as its own unless it is the default; wrappers hand it on to what they hold; the last name wins. A Store can be made for exactly the names without a dot.", "quantifier": "every matcher, index, child, name", "why_tests_cant": "no test calls set_child or get_children; there are 22 implementations of each of these methods", "anchors": ["src/matcher.rs: Matcher", "src/matchers/*.rs: get_children, set_child, add_pattern, set_name", "src/matchers/store.rs: new_as_string_type, new_as_matcher_type"]}
{"id": "C75", "title": "Equals can be put for equals anywhere in a grammar", "statement": "Two matchers that have the same outcomes in every context, scope and state and the same standing as patterns can be put for each other at any depth of a grammar, any number of times, without any change of outcomes, panics and divergence included, as long as the matchers around them carry no names of their own. Tokenizing gives the same results. Two Optionals are one, two negations are an Optional around one, three negations are two, two ProxyChildren are one, and of two given scopes the inner one counts. With names around the place it is false: the scope remembers which matcher it was.", "quantifier": "every grammar, environment, source, context, state", "why_tests_cant": "a claim about all contexts and all pairs of grammars", "anchors": ["src/matcher.rs: Matcher::exec", "src/matchers/program.rs: exec", "src/matchers/not.rs: exec", "src/matchers/optional.rs: exec"]}
{"id": "C76", "title": "Asking for a log changes nothing but the log", "statement": "Compiling with FLAG_LOG_STDERR has the same results, states and panics as compiling without it. What is printed is, in this order, what the compilations of imported files print and the messages of all errors returned; after a success it is the messages of the error tokens directly below the root of the parse. Scripts and projects that are written well print nothing. Success does not mean that nothing was wrong: there are scripts that compile with success while the log has an error of which the caller learns nothing.", "quantifier": "every script, file system, name, state and depth of imports", "why_tests_cant": "the printing code unwraps an attribute of every error token, and tests neither set the flag nor read stderr", "anchors": ["src/script/v1/parser.rs: compile_script, FLAG_LOG_STDERR"]}
{"id": "C77", "title": "No script can be read in two ways", "statement": "Two written patterns at the start of the same text are equally long, have the same fault or none, and mean the same matcher. Two readings of one script text have the same name, the same patterns in the same order, and give the same names the same matchers; with imports, whatever one reading does with any file system the other does too, and when something is wrong with one then something is wrong with the other.", "quantifier": "every ASCII text, all written patterns and scripts, file systems and compilers of imported files", "why_tests_cant": "a claim about all pairs of readings of all texts", "anchors": ["src/script/v1/mod.rs", "src/script/v1/parser.rs: build_matcher_from_tokens"]}
{"id": "C78", "title": "The names and the error marks of tokens come from the grammar", "statement": "Every token of a result, at any depth, has a name that a program, literal, expression, sequence, pin, range or renaming of the grammar (or of a matcher it can refer to) gives; a token is marked as an error only if one of these matchers makes errors. Tokenizing does not change this.", "quantifier": "every grammar, set of names closed under the grammar and the scopes it looks into, source, context, state, and user code that respects the set", "why_tests_cant": "a claim about all tokens of all trees", "anchors": ["src/matchers/program.rs: exec", "src/matchers/map.rs: exec", "src/parser_context.rs: tokenize", "adextopa_macros/src/lib.rs: set_name"]}
{"id": "C79", "title": "Compiled scripts report no errors", "statement": "Whatever the text of a script and of the files it imports, what is compiled from it contains nothing that makes error tokens; it refers to its own scope context and to those of the scripts it imports only, which are new. Parsing with it gives a tree without error tokens, or no tree.", "quantifier": "every text, file system, name, state, log flag, depth of imports; every text parsed with the result", "why_tests_cant": "a claim about all scripts and all texts they are applied to", "anchors": ["src/script/v1/parser.rs: build_matcher_from_tokens, construct_matcher_from_pattern_definition"]}
{"id": "C80", "title": "The scope contexts of others are left alone", "statement": "A grammar without given scopes and user code only changes the scope context it is executed in; the grammar of the script language is one. Compiling a script, with success or with errors, leaves every scope context that there was before as it was, so that what was compiled or registered before stays the same.", "quantifier": "every grammar, source, context and state; every script, file system and depth of imports", "why_tests_cant": "scope contexts are shared mutable objects; tests compile one script at a time", "anchors": ["src/scope_context.rs", "src/scope.rs", "src/script/v1/parser.rs: compile_script, build_matcher_from_tokens", "src/matchers/set_scope.rs"]}
{"id": "C81", "title": "Parsed scripts have the shape of the script language", "statement": "Every token of a parsed script is an error with a message and without children, or has the children that its name demands, in order, and lies within the text; only the root can have errors as children, and the root is a Script or an error.", "quantifier": "every ASCII text shorter than isize::MAX, every state and name", "why_tests_cant": "a claim about every token of every text, also of texts that are not scripts", "anchors": ["src/script/v1/matchers/*.rs: the grammar", "src/parser_context.rs: tokenize", "src/script/v1/parser.rs: the children it looks for"]}
{"id": "C82", "title": "Parsing an ASCII script never panics and returns", "statement": "Tokenizing an ASCII text with the grammar of scripts does not panic, whatever the text, and returns within a number of nested calls that is linear in the length of the text.", "quantifier": "every ASCII text shorter than isize::MAX, every state, name and fuel", "why_tests_cant": "absence of panics on all texts", "anchors": ["src/script/v1/matchers/*.rs: the grammar", "src/parser_context.rs: tokenize"]}
{"id": "C83", "title": "Why compiling an ASCII script panics", "statement": "Compiling an ASCII script from a text panics only because of a regex in it that does not compile or of a sequence whose start or end is empty, with the panic that belongs to it; otherwise it returns. For files, the reason can also be a file that is not there or a path that leads nowhere, in the file or in one it imports. In particular a panic takes the character / in the text, or the character % together with an empty string ''. When a file is compiled, the file where the panic happens is the one asked for or reached from it by imports, and it is not there, imports from a path that leads nowhere, has a slash, or has a percent sign together with an empty string.", "quantifier": "every ASCII text, file system of ASCII texts, state, name, log flag, depth of imports and fuel", "why_tests_cant": "every unwrap and index of the compiler has to be accounted for on all texts", "anchors": ["src/script/v1/parser.rs: compile_script_from_str, compile_script_from_file, build_matcher_from_tokens", "src/matchers/sequence.rs: exec", "src/parser.rs: new_from_file"]}
{"id": "C84", "title": "Lexemes of ASCII scripts", "statement": "Every token of a parsed ASCII script whose name is one of the tokens without children covers, by its matched range, exactly the text of a lexeme of its kind: identifiers, numbers, attribute names, comments, flags and plain regex parts are the longest run of their characters; strings and bracket expressions are delimited text whose escapes are well formed; signs are one fixed character. Its value is that text, or for delimited text what is between the delimiters without the escaping backslashes.", "quantifier": "every ASCII text, script or not, every tame environment, and every token of the tree", "why_tests_cant": "the texts are unbounded, and the claim covers every leaf of every tree", "anchors": ["src/script/v1/matchers/*.rs", "src/matchers/matches.rs: exec", "src/matchers/equals.rs: exec", "src/matchers/sequence.rs: exec", "src/token.rs: value"]}
{"id": "C85", "title": "What is around a window does not matter", "statement": "A matcher that makes no errors, runs no user code and uses no positions as values does in a window of a larger ASCII source exactly what it does when the text of the window is the whole source: it finishes, panics or runs forever alike, with the same result and variables and the same trees, every token moved by the length of the text before the window.", "quantifier": "every such matcher, window, text before and after it, store and context", "why_tests_cant": "two unbounded sources are compared; every offset computation of the engine has to be the same one after a shift", "anchors": ["src/parser_context.rs: matches_str, matches_regexp", "src/matchers/program.rs: exec, add_token_to_children, handle_extract_token, handle_skip, finalize_program_token", "src/matchers/sequence.rs: exec", "src/matchers/discard.rs", "src/source_range.rs: contain", "src/matchers/expand_range.rs"]}
{"id": "C86", "title": "What is said of texts that are not compiled", "statement": "When an ASCII text is not compiled, its errors are one of these: nothing could be parsed; the parse gave an error as its root; an attribute value is not between quotes (the place is that of the characters up to the next blank or quote); or, for some token of the tree, the messages and places of all error tokens visited before it, in their order, followed by the one error that this token is to blame for: a pattern in it has no matcher (one of five reasons, at the place 0..0), it imports where there is no file, imports a root without a name, or wants a name the other file does not have. In a file the last part can also be the errors of a file that the token imports, which are of the same kind. A file that is not compiled has at least one error.", "quantifier": "every ASCII text and every file system of ASCII texts, scripts or not, every tame environment", "why_tests_cant": "the texts and the import graphs are unbounded, and the claim excludes all other errors", "anchors": ["src/script/v1/parser.rs: compile_script, build_matcher_from_tokens", "src/script/v1/matchers/attribute.rs", "src/parser_context.rs: tokenize", "src/parse_error.rs", "src/parser_context.rs: get_error_as_string"]}
{"id": "C87", "title": "The outcome of a compilation does not depend on how much is allowed for it", "statement": "If compiling a text or a file (with the files it imports) comes to an end within some bound on the depth of executions and on the nesting of imports, then every larger bound gives the same outcome: the same matcher, errors or panic and the same store. Any two bounds that suffice agree, and every text has exactly one outcome, reached with 18 times its length plus 24; so has every file whose imports do not lead in circles.", "quantifier": "every text, file system, environment, store and pair of bounds; existence: every tame, tidy and returning environment", "why_tests_cant": "it relates all bounds; it is what makes statements about the outcome of a compilation independent of the bounds", "anchors": ["src/script/v1/parser.rs: compile_script, compile_script_from_str, compile_script_from_file", "src/token_visitor.rs: visit", "src/parser_context.rs: tokenize"]}
