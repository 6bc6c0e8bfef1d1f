# Formal model of rust-adextopa-core

## 1. What is modelled

The library is a parser-combinator engine: tokens, matchers and scopes are
shared mutable objects (`Rc<RefCell<..>>`), parser contexts are copied per
matcher.  The model is an executable, total Gallina program:

| Rust | model |
|---|---|
| `String` / `&str` | `str := list ascii` (UTF-8 bytes) |
| `usize` | `N`, with `usize_max = 2^64-1`; `+`/`-` go through checked operations |
| slicing `&s[a..b]` | `slice s a b : option str`; `None` (panic) when out of bounds or off a char boundary |
| `substring` crate | `char_substring` (character indices, clamping) |
| `TokenRef` | `addr := nat`, index into the token heap of the state |
| `ScopeContextRef` | `sid := nat`, index into the scope-context table of the state |
| `MatcherRef` | inductive type `matcher` (matchers are never mutated while executing) |
| `ParserContextRef` | record passed by value (every matcher works on its own clone) |
| closures given to `Map`/`Catch` | an enumeration for the closures in the library; an index into an environment of arbitrary functions for user closures |
| `Regex` | a finder function `str -> option (N * N)`; the fixed regexes of the script grammar are given by a small backtracking regex engine |
| panic | explicit outcome `Pan reason` |
| non-termination / stack overflow | `Fuel` outcome for every amount of fuel |
| overflow checks (debug / release build) | a boolean in the environment |

## 2. Trusted base

* Coq 8.16.1's kernel (`coqchk` is run by the gate).
* `Print Assumptions` of every property theorem: reported beneath each theorem;
  all are `Closed under the global context` (no axioms at all).
* The hand translation from Rust to Gallina: every definition cites file and
  lines.  The unit tests of the repository that pin down concrete results are
  replayed against the model in `Conform*.v` (tests, not proofs).
* Assumed behaviour of external code:
  * `Regex::find` returns the leftmost match, as a span inside its haystack on
    character boundaries (a hypothesis `finder_ok` where a theorem needs it);
  * `substring` crate: character-indexed, clamping, empty when end <= start;
  * `HashMap`: a finite map, iteration order not observable;
  * Unicode classes `\w \s \d` on non-ASCII characters: parameters of the environment.

### Simplifications

* One parser (source, file name) per execution: tokens of another parser can
  not be mixed in through a shared scope.
* `Rc` cycles between matchers that a user could tie by hand with
  `add_pattern` are excluded (recursion through named references is modelled).
  Cyclic token graphs (possible through user closures only) make a traversal
  run out of fuel, as they make the Rust traversal overflow its stack.
* A `Scope` object is owned by one scope context (the library never shares one).
* Printing of debug output is not modelled; the slices it takes (which can
  panic) are.  The text of a token (src/token.rs:30-100) is modelled in TokenOps
  and finite for the results of executions (C71).
* Executions start from a constructed matcher.  What can go wrong when grammars
  are put together (`Store` with a `.` in the name, `set_child` out of bounds,
  `add_pattern` on a wrapper) is in MatcherOps and C74; in the script compiler,
  which constructs matchers at run time, such panics are part of the model.
* Visitor hooks only see the tree; a hook that rewrites descendants during the
  visit is not modelled.
* The file system is an oracle `path -> option text` (imports).
* Memory exhaustion, reference counts and drop order are not modelled.

### Hypotheses about user code

User closures and user-written matchers are functions in the environment.
Invariants of whole runs assume that these functions keep to the invariant
themselves; the library's own closures are part of the model and are proved to.

| hypothesis | meaning | used by |
|---|---|---|
| `tame` | existing tokens are not changed, results are new or given tokens | C18, C19, C51, C45-C47 |
| `scope_tame` | only innermost scopes are written | C21 |
| `tidy` | given trees, return trees | C36, C51 |
| `fitting` | tokens and skips stay in the window | C45, C46, C47 |
| `user_writes` | names that user code assigns | C52 |
| `movable` | same behaviour at other addresses | C54 |
| `debug_blind` | debug level and stored matchers are not looked at | C38 |
| `returning`, `never_stops` | comes back; does not return `Stop` | C47 |

Each of them is shown to hold for an environment used in the examples.

## 3. Properties and how they are proved

`exec fuel m ctx scope state` is `step fuel (exec (fuel-1))`, so an invariant is
proved by showing that `step` preserves it for any inner executor that does,
and then by induction on the fuel.  Properties of single matchers are proved
by unfolding `step` once, with the inner execution as a hypothesis; so they
hold for every inner matcher.  `Runs`, `Panics`, `Diverges` (Spec.v) say that
an execution finishes with some fuel, panics with some fuel, or runs out of
every fuel; by monotonicity in the fuel exactly one of them holds (C20).

* C01-C05: pure functions of the context; compared with the independent
  specifications in `Spec.v` (prefix relation, line splitting, decimal numerals).
* C06: lemma on `char_substring` for ASCII; witness for the failure.
* C07-C14, C24, C25, C29, C32-C35, C37, C55-C59: one-step characterisations.
* C09-C11: induction on the scan against a recursive specification of
  escaped text (`Spec.v`).
* C15-C17, C27, C28, C31: induction over the pattern list / iterations.
* C18, C19, C21, C45, C46, C51, C52: invariants of `exec` by induction on fuel.
* C20: fuel monotonicity.  C26, C30, C50: non-termination by induction on fuel.
* C47: structural induction giving sufficient fuel; progress of loops from the
  invariants of C45/C46.
* C22, C23, C40: algebraic laws and round trips (decimal numerals).
* C36, C39: induction over the traversal.
* C38: simulation between executions that differ only in debug level.
* C54: simulation between executions at different addresses.
* C41-C44, C48, C49, C53: characterisations of the compiler over arbitrary
  token trees, and witnesses computed by running the modelled script grammar
  and compiler in the kernel.
* C60: SpecSyntax.v describes patterns and scripts, how they are written and
  what they stand for, without the grammar.  `sees` (SeesProofs.v) abstracts an
  execution to "at this rest of the source this matcher finds this tree"; every
  part of the grammar gets a lemma of that form, by induction over how the text
  is written (SyntaxProofs, ScriptTextProofs); what a tree means to the compiler
  follows from C48, C53 (CompileProofs).  The other direction is not claimed: the
  grammar accepts more than is described (for instance an unclosed `<{ .. >`).
* C61: induction over the import tree, with C60 for each file and C54 for what is
  left alone.
* C62: as C60, with programs that collect error tokens beside trees
  (`stroll`, BrokenProofs).
* C63: as C60, for texts that end before the value of an attribute; a fatal error
  goes through every matcher around it (`dies`, `WFatal`, FatalProofs).
* C64: the proof of C60 carries both what a pattern means and what is wrong with it
  (`pattern_fate`, `breaks`); FaultProofs follows the first fault through the compiler.
* C65: the same with imports.  What goes wrong is a `blame` (SpecSyntax) at the level of
  the text and a `trouble` (SpecScript) at the level of the tokens; CulpritProofs goes
  through the files by induction on `culprit`.  The store left behind by a failing
  compilation is not claimed: the Rust drops it.
* C66: readings of texts (`reads` and its companions, SpecMatch) are relations on texts
  and trees of nodes; a `book` stands for the scopes.  MatchProofs shows by induction on
  readings that the matchers do the same (`patterns_get`), with trees in disjoint parts
  of the heap; ReadProofs puts it together with C60 and tokenizing, BookProofs with C61.
* C67: `steady_script` (SpecSteady) numbers the names so that what is referred to before
  something has been taken has a smaller number.  SteadyProofs derives a reading of every
  text by induction on the text that is left, the number and the pattern; C66 turns the
  reading into an execution.
* C68: the other direction of C66.  EndProofs shows that readings are unique and, by
  induction on the fuel, that an execution that does not run out of it has a reading;
  C66 then says what the execution gives.  `sane` and `measured` (SpecSteady) exclude
  patterns that stand for nothing and regular expressions that report more than their
  text; SaneProofs derives `sane` from the absence of faults.
* C69: compilations end.  `guarded` (SpecGuard) says of a grammar with references by
  name that it moves forward before it comes back to the same place.  GuardProofs
  shows where executions of such grammars end (inside the source, not before their
  start, behind it where a pattern must move), GuardEnds bounds the fuel by the text
  that is left, GuardScript checks the grammar of scripts, GuardCompile adds the
  visitor and the building of matchers.
* C70-C73: tokens from outside.  TokenOps models comparing, printing and the methods
  the engine does not use.  LineageProofs and TruthProofs carry two invariants through
  all matchers, after the pattern of TreeProofs: parents are older than children, and
  texts are those of the ranges.
* C74, C75: matchers from outside.  MatcherOps models the methods that show, replace
  and add parts.  OpsProofs shows that matchers with the same outcomes can be put for
  each other at any depth (executions only use finitely many outcomes of the parts, so
  their fuel can be bounded after the fact).
* C76: what compiling prints.  LogOps is the compiler with the lines it prints; LogProofs
  shows that it is the compiler, what the lines are, and that sound projects print none.
* C77: written scripts are unambiguous, because the one parse of a text decides what all
  its readings (derivations of `script_text`) mean.
* C78-C80: where names and error marks come from (one invariant over a set of names, a
  proposition for errors and a set of scope contexts), that compiled scripts make no
  errors, and that neither the script grammar nor compiling touches other scope contexts.
* C81-C83: all ASCII texts, scripts or not.  ShapeProofs carries a table of names and
  children through the engine, ShapeScript proves it for every rule of the grammar,
  ShapeCompile that the compiler then finds every child it unwraps, so that only regexes,
  empty sequence delimiters and missing files are left as reasons for panics.
* C84: the leaves of the same trees; ShapeLex says what the regular expressions of the
  grammar take, ShapeProofs carries it through the engine.
* C85: two executions side by side, one `slen pre` bytes further on; tokens of unfinished
  programs are the only ones that are not moved (they have the range 0..0).
* C86: the invariant of C81 also says which fatal errors an execution can end with;
  RefusedProofs follows the errors of the compiler through the visitor.
* C87: the bounds of the model (fuel, nesting of imports) do not show in outcomes.

Where the code does not do what its documentation or its tests suggest, the
property is about what it does, and a `..._refuted` theorem or an example holds
the witness (for instance C06, C28, C29, C33, C41-C44, C47, C49).

## 4. Files (rocq/theories)

Model:

| file | contents |
|---|---|
| Str | bytes, slices, character substrings, decimal numerals |
| Types | ranges, tokens, matchers, scopes, contexts, states, results |
| Context | literal and regex matching, line/column, error texts, debug slices |
| Exec | `step` and `exec`: all matchers |
| Tokenize | tokenize, error collection, visitor |
| Macros | the constructor macros |
| ReEngine | backtracking engine for the regexes of the script grammar |
| ScriptGrammar | the grammar of scripts |
| ScriptBuild | the compiler of parsed scripts, imports |
| TokenOps | comparing and printing tokens, methods of tokens that the engine does not use |
| MatcherOps | methods of matchers that show, replace and add parts; making a Store |
| LogOps | the compiler of scripts together with the lines it prints (FLAG_LOG_STDERR) |

Specifications (no proofs): Spec, SpecScript, SpecMore, SpecSyntax (the script
language: abstract syntax, written forms, meaning), SpecMatch (what scripts make of texts), SpecSteady (scripts that
make something of every text, and of none), SpecGuard (grammars that move forward before they refer to names), SpecPrint
(comparing and printing tokens), SpecOps (replacing parts of matchers), SpecNames (where names come from),
SpecShape, SpecLex (the shape and the lexemes of parsed scripts), SpecShift (windows of a larger source),
SpecRefused (what is said of texts that are not compiled).

Proofs: Facts, Mono, ContextProofs, DecimalProofs, TextProofs, Basics,
AtomProofs, CombProofs, ScopeProofs, ProgramProofs, MapProofs, FrameProofs,
FamilyProofs, LoopProofs, DepthProofs, FetchProofs, TokenizeProofs, TreeProofs,
BoundsProofs, Utf8Proofs, FlowProofs, ScriptProofs, MoveProofs, ImportProofs,
DebugProofs, TerminationProofs, WrapProofs, SeesProofs (what matchers find at a
given rest of an ASCII source, as plain trees of text), LexProofs (the regexes of
the grammar), SyntaxProofs (patterns), ScriptTextProofs (heads, statements,
scripts), CompileProofs, BrokenProofs (scripts that are not written well),
FatalProofs (values that are not quoted), FaultProofs (patterns that stand for nothing),
ProjectProofs (files that import each other), CulpritProofs (the same, one being wrong),
MatchProofs, ReadProofs and BookProofs (what compiled scripts and files make of texts),
SteadyProofs (scripts that make something of every text), SaneProofs (patterns without
faults), EndProofs and FateProofs (what ends has a reading),
GuardProofs, GuardEnds, GuardScript, GuardCompile (guarded grammars end, and so does compiling),
TokenProofs, PrintProofs, LineageProofs, TruthProofs (tokens compared, printed, and what they carry),
OpsProofs (parts of matchers), LogProofs (what compiling prints), UniqueProofs (one meaning for a text),
NamesProofs, HomeProofs, NamesCompile (names, error marks, scope contexts),
ShapeLex, ShapeProofs, ShapeScript, ShapeCompile (the shape of parsed scripts, panics of the compiler),
ShiftProofs (windows), ErrorTextProofs, RefusedProofs (errors of the compiler),
FuelProofs (bounds of compilations).

Samples, SampleScripts, SampleReads, SampleSteady, SampleGuard, SampleShape, SampleLex: environments, contexts, scripts and texts for the examples.  ConformMatchers,
ConformGrammar, ConformScript: the unit tests of the crate, replayed.

Properties (theorems closed by one lemma, `Print Assumptions`, examples):
PropsContext, PropsAtoms, PropsCombinators, PropsScopes, PropsPrograms,
PropsTokenize, PropsInvariants, PropsScript, PropsStore, PropsDebug,
PropsTermination, PropsWrap, PropsSyntax, PropsBroken, PropsFatal,
PropsFault, PropsCulprit, PropsMatch, PropsSteady, PropsEnd,
PropsGuard, PropsPrint, PropsOps, PropsLog, PropsUnique, PropsNames,
PropsShape, PropsLex, PropsShift, PropsRefused,
PropsFuel.

Tools: `tools/manifest.py` writes MANIFEST.json from the theorem names and
`tools/notes.json`; `tools/mutate.py` applies seeded changes of the model in a
scratch copy and lists the theorems that fail (results in `seeded/LOG.jsonl`);
`tools/conform.py` is used for the replayed unit tests.

## 5. Library axioms

No theorem depends on an axiom.  The checker lists seven constants of
`Coq.ssr.ssrunder` (standard library, loaded by the tactics files); nothing
in the development uses them.
