# Formal model of koala-planner/HDDL-Parser (Rocq/Coq 8.16.1)

The Rust code in `/repo` is modelled function by function as total Gallina
functions under `rocq/theories`; every definition cites the file and lines it
models.  Only the Coq standard library is used.

## Layers

| file | contents |
|---|---|
| `Base.v` | bytes, Latin-1/UTF-8 classification, decimal numerals, panic sites |
| `Token.v`, `Lexer.v` | `lexical_analyzer/` |
| `Double.v` | the doubles behind real literals, `Display` of f64 |
| `Cursor.v` | `lexical_analyzer/tokenizer.rs` again, with its cursor, machine arithmetic and slices (C65) |
| `Ast.v`, `Parser.v` | `syntactic_analyzer/` |
| `Errors.v` | `output/` (errors, warnings, Display) |
| `Graph.v` | executable stand-ins for petgraph's `toposort`/`has_path_connecting`, proved against relational specs in `GraphProofs.v` |
| `Semantic.v` | `semantic_analyzer/analyzers`, `type_checker`, `undefined_elements` |
| `Tdg.v` | `semantic_analyzer/tdg.rs`, `output/metadata.rs` (data) |
| `Api.v` | `lib.rs` (verify, get_metadata) |
| `Json.v` | the derived serializers, serde_json's pretty printer, `lib.rs` to_json |
| `Lsp.v` | `language_server/`, one message at a time |
| `Conc.v` | `language_server/request_handler.rs`, handlers interleaved at their await points |
| `Cli.v` | `bin/hddl_analyzer`, Display of the metadata |
| `Spec*.v` | small independent specifications: `SpecLex` (layout, spellings, lines), `SpecGrammar` (the accepted grammar), `SpecPrint` (a canonical printer), `SpecSem` (well-formedness), `SpecTdg` (decomposition), `SpecRec` (cycles and their class), `SpecIo` (what a user sees) |
| `Props*.v` | the property theorems with non-vacuity examples |
| `Assumptions.v` | one `Print Assumptions` for all property theorems |
| `Tests.v`, `TestsSyntax.v` | bounded sanity checks: the repository's unit tests and `integration_flawed.rs` replayed on the model (tests, not proofs) |
| all others | lemmas |

## Modelling conventions

* A program is a Coq `string` (a sequence of 8-bit `ascii` bytes).  The cursor
  is represented by the remaining suffix; `cursor = length program - length rest`.
  Out-of-bounds indexing is a match on the empty suffix and yields `Panic`.
* Every Rust function that can return `Err`, panic, or loop returns an outcome
  in `{Ok, Err, Panic site, OutOfFuel}`.  Loops take fuel; divergence of the
  Rust code is the statement "`OutOfFuel` for every fuel", termination is
  "some fuel gives a result other than `OutOfFuel`, and more fuel does not change it".
* Hash containers are lists; wherever the Rust code *iterates* a
  `HashSet`/`HashMap` in a way that can influence the result, the order is an
  explicit argument (a function constrained to return a permutation), and
  theorems quantify over it.
* `char::is_alphanumeric` is a concrete table for U+0000..U+00FF and an
  arbitrary function argument above (class `Unicode`), over which theorems quantify.

## Per property plan

* C01-C07 (tokenizer): state machine on (suffix, line); invariants by
  induction on read/peek histories; round trip by induction on token lists.
* C08, C09: fuelled parser; measure = bytes left; induction on fuel.
* C10: grammar as inductive relations over (token, line) lists; soundness by
  induction on fuel, completeness by induction on derivations.
* C11: canonical printer on trees; follows from C10 completeness and C06.
* C12, C13: predicates on trees carried through the parser and analyzers.
* C14: prefix-determinism of the tokenizer and parser (suffix replacement).
* C15-C22: declarative well-formedness predicates; each check function proved
  equivalent (iff) to the corresponding predicate.
* C23-C25, C27: worklist/fixpoint invariants against inductive definitions of
  derivability on the syntax tree.
* C26: invariants of the path-enumeration loop; class = maximum over cycles.
* C28, C29, C36, C37: relational statements derived from C21/C22 and from the
  structure of `verify`.
* C30, C31, C34: Display/diagnostics/CLI as functions over outcomes.
* C32: trace induction over notification histories.
* C33: injectivity of the serializers and of the pretty printer, by a
  prefix-freeness argument on the rendered text (no decoder needed).
* C35: tokenizer lemma, lifted to whole documents.
* C38: from C10 completeness and C14 (the grammar has an explicit 'open' production).
* C39: the path enumeration visits exactly the simple cycles; the class is the
  maximum of the classes of the cycles (SpecRec.v).
* C40: exact conditions on recursive partially ordered methods (`usable` in SpecOrder.v);
  the bound of the loop over later subtasks is a weight on paths in the order.
* C41: case analysis of to_json against C10.
* C42-C44: one relation on trees (SpecSim.v: equal up to injective renaming and
  related lines, ignoring what verification must ignore); every analyzer maps
  related inputs to related results (SimSem.v, SimTdg.v); the relation is
  reached from equal token streams, from renaming, and from equal JSON (SimTop.v).
  RenText.v lifts renaming from trees to the texts themselves.
* C45: every failing branch of the parser is paired with a completion of the
  consumed tokens (ParserPrefix*.v, ParserShapes.v) and with the fact that no
  completion contains the reported token; completeness of the grammar (C10)
  turns this into a statement about documents (ParserBlame.v).
* C46: if a reported name did not occur in the texts, a renaming that moves only
  this name would leave the documents alone but change the report (C43).
* C47, C48: injectivity of the message and report printers (TextProofs.v), with
  the metadata text followed through `main`; the phrases around names and numbers (SpecWording.v) are found in the text.
* C49-C52: the handlers as small-step programs over the shared documents and a
  fair read-write lock (Conc.v), with arrivals, cancellations and changes of the
  disk as further steps.  C49 by an invariant over executions against the
  sequential server of Lsp.v; C50 by a ranking function and an invariant of the
  queue; C51 by a frontier invariant; C52 by induction on escaped paths.
* C53, C54: a ground execution semantics (SpecExec.v) on syntax trees; preservation
  of typing by every step, from the declarative conditions that C21/C22 prove
  equivalent to acceptance; consistency of the order by a lexicographic rank.
* C55: monotonicity of the declarative conditions in the declarations.
* C56: parts of a tree by a growth relation (SpecFirst.v); the whole check begins
  with the check of every part.
* C57: RFC 8259 as an inductive relation between texts and values and the shape of
  the export as relations between values and trees (SpecJson.v); rendering by
  induction on values, unique reading by mutual induction on the relation.
* C58: termination by weights of tasks; a closed walk through links with vanishing
  neighbours is made a simple cycle and classified by C39; conversely the links of
  a classified cycle give refinements.  The same file adds exactness of nullable
  tasks (C24) and of warnings (C23) under a condition on the domain, and bounds for
  both that hold in every domain (TdgUpper.v: an invariant of the loop).
* C59: the meaning of each expectation as a list of tokens is an inductive relation
  (SpecExpect.v).  The invariant of C45 carries, for the quoted expectation, a
  completion for every token named and a failure for every other token.
* C60: ill-formed and crashing texts are two inductive relations beside `Spells`
  (SpecLexErr.v); proved by case analysis on the first byte and uniqueness of gaps.
* C61: removals and references are specified in SpecUnused.v; proved on the
  declarative conditions of C21 and C22.
* C62: the standard form is a second grammar (SpecHddl.v); proved by embedding it
  into the exact grammar of the parser of C10.
* C63: the fuel of the model counts rounds.  The stack of the metadata search is an
  antichain of simple paths; every round removes exactly one path (TdgTime.v).  The
  exponential family is written with the printer of C11.
* C64: case analysis over the tokens, with C45 for the place of the reported token and
  the spellings of SpecLex.v; texts with an optional part are read by `fits`.  The text of a
  real is a literal of the same double (DisplayProofs.v, with the rounding lemmas of C81).
* C65: the tokenizer is modelled a second time at the level of the code (Cursor.v: cursor,
  checked or wrapping machine arithmetic, indexing, slices) and proved to refine Lexer.v;
  the simulation relation is `program = p ++ rest` with the cursor at the length of `p`.
* C66: the list of warnings as a filter (VerifyTop.v) joined with the exact reachable sets
  (TdgTop.v) and the nullables of the metadata; the decomposition relations and the class of a
  cycle are monotone in the set of methods.
* C67: two-run proofs (Shape.v): the graph search as a function of the structure; readings of a
  formula that respect the rules of SpecShape.v.
* C68: the recursive functions once more with a limit on open calls (Stack.v); a run is related to
  the unlimited one by induction, and the needed limit to the nesting of the parsed formulas.
* C69: the subtype closure is inclusion in all interpretations (the principal ideals are the
  counter-model); the exact well-formedness of C21/C22 is monotone in types and declarations.
* C70: an instrumented copy of the parser (Calls.v), related to Parser.v function by function by a
  triple that also bounds the number of pending look-aheads; the bounds follow from the shape of
  the record.
* C71: chains of constraints are characterised by positions; verification is compared function by
  function, the metadata through C39 and C40.
* C72: what is left to do is an expansion of the initial tasks, so C23 and C25 apply to it; that the
  restricted domain is accepted follows from C61.
* C73: what a name denotes (SpecSem.v) is shown to be the same before and after; verdicts follow by
  C21 and C22, executions step by step.
* C74: the relation is symmetric, so one direction suffices for verdicts (by C21 and C22) and for
  executions (by composing the choice of objects with the inverse renaming); the analyses by C67.
* C75: decoder and encoder are inverse (arithmetic on bytes); no byte of another character is ASCII, so
  delimiters cut texts between characters; crashes and names then follow from C60 and C06.
* C76: well-formedness is antitone in the bodies; a formula is well-formed if all its paths are; pieces are
  printed with the printer of C11, and lines do not matter by the relation of C42.
* C77: Serve.v models the session: tower-lsp's life cycle, all handlers, log messages, capabilities.
  SpecServe.v has the editor and its messages. By
  induction over sessions (the texts mirror those the editor shows); C77_alone runs a
  handler of Conc.v by itself.
* C78: SpecReport.v counts line breaks. The list of warnings is the filtered list of tasks (VerifyTop.v);
  nullables are collected without repetition; the cycle is simple (C26); messages are made of words (C46),
  which have no line breaks.
* C79: Args.v models cli_args.rs as clap reads it, argument by argument, and the process around `main`.
  SpecArgs.v is the grammar of command lines as a user sees it. Both inclusions by
  induction; the effects from the equations of Cli.v.
* C80: simple cycles are carried over method by method (SpecSame.v), so C39, C40, C24 and C23 apply to both
  domains.
* C81: rounding is monotone and its error is at most 2^-53 of the result (RealProofs.v, RealProofs2.v), which gives
  fifteen digits, the infinite values and that the search for the shortest decimal misses none; distinct doubles are
  at least 2^-53 apart, which gives seventeen digits (RealProofs3.v).
* C82: no path of decompositions is longer than the number of names that methods decompose; weights along such paths
  (TdgBound.v) give the bounds, and a cycle gives paths of every length.
* C83: every node of the exported value is paid for by a token (ExportSize.v, induction over the grammar of C10), tokens are
  paid for by bytes (ExportTop.v), and a text is at most its nodes times its longest leaf and its depth.
* C84: one triple per parsing function, saying that it fails only with texts quoting names already read (QuoteProofs.v); lexemes
  end before a delimiter (C60).
* C85: a text and what follows it determine the formula, by induction on the formula; the first bytes, or the byte that ends the
  first word, tell its kind (FormulaTextProofs.v).
* C86: the additions are the extension of C55; the conditions on them are those of C22 on the problem, because the constants of the
  extended domain denote what objects and constants denote in the problem (PropsFold.v).
* C87: a substitution that respects types preserves the conditions of C21; a step with an instance is a step with the method it is an
  instance of, under the binding composed with the substitution; both domains have the same structure in the sense of C80 (PropsInst.v).
* C88: both methods are instances in the sense of C87 with the parameters of the unfolded method, so its parts are well-formed, and a step
  with it is a step with each of them; on names alone, its edges are edges or pairs of edges (PropsUnfold.v).

Where a desirable property is false of the code, the property is stated with
the hypothesis that makes it true, and a `_refuted`/`_needed` theorem gives a
concrete witness that the hypothesis cannot be dropped.

## Trusted base

**Checked by the kernel.**  Coq 8.16.1's kernel (including the `vm_compute`
conversion, used for concrete witnesses only).  `Assumptions.v` runs
`Print Assumptions` on all property theorems at once; it prints "Closed under
the global context", i.e. no axiom is used by any property theorem.  Loading `Lia`/
`ssreflect`-dependent standard library files brings the standard library's own
`Coq.ssr.ssrunder.Under_rel.*` constants into the environment (module-type
parameters of the standard library); no theorem depends on them.  There are no
axioms, parameters, admitted proofs, functors or module types of our own.

**Type classes as parameters.**  `Unicode` (which code points above U+00FF are
alphanumeric) and `Floats` (the text serde_json prints for a real) are ordinary
arguments of the theorems, i.e. universally quantified; C33 assumes the stated
shape `floats_ok` of the latter and an example shows that it can be met; C57
assumes that a finite real is printed as a JSON number with a fraction or an
exponent and an infinite one as `null`.  C81_assumptions shows both for Real64.v.
Hash iteration orders (`hash_env`) are universally quantified likewise.

**Modelled, line by line** (each definition cites its lines): tokenizer,
parser, syntax trees, semantic analyzers, type checkers, TDG, errors/warnings
and their Display, metadata and its Display, lib.rs, JSON export, language
server handlers and diagnostics, the command line tool after argument parsing.

**Believed, not proved.**
* The transcription from Rust to Gallina.  As evidence, an extraction of the
  model (outside this repository) was run on every document of the repository's
  own tests: all outcomes asserted by the lexer, parser and semantic unit tests
  and by `integration_flawed.rs` are reproduced (kept in `Tests.v` and
  `TestsSyntax.v`), and 674 of the 879 IPC benchmark problems beside a
  `domain.hddl` (the smallest, and others under 24 kB, in each of the
  43 folders) are accepted as `integration_ipc.rs` demands.  The larger ones
  were not run.  Unit test outcomes were compared by eye; the two files are
  generated from the model's own answers, so they guard against later changes
  rather than proving agreement.
* petgraph's `toposort` is Ok iff there is no directed cycle and
  `has_path_connecting` is reflexive-transitive reachability.
* clap 4.5 reads the arguments as Args.v says (its documentation, not its code).
* tower-lsp 0.20 polls the handlers of all messages in one task, at most four at
  a time (the theorems hold for every limit), so a panic ends the server; for
  C51 also that it polls new handlers in the order of arrival; for C77 its life
  cycle and error codes as transcribed in Serve.v.  tokio's RwLock
  serves its waiters in order.  A folder is listed at one moment.  The url and
  percent_encoding crates and std::path as transcribed in Conc.v for Unix.
* `str::parse::<f64>` rounds to the nearest double, ties to even; `Display` prints
  the shortest decimal, the closest if several, without exponent (Double.v); and
  serde_json prints the same digits in ryu's layout (Real64.v).  All are written
  from documentation; there is no lock file; only C64, C81, C83 and C84 depend on it.
* Rust's std: `from_utf8`, `str::parse` for i64/f64, hash containers visit every
  element once; the url crate rejects `"//"`; serde's derived representation and
  serde_json's pretty printer.

**Not modelled.**  Stack overflow (except as open calls in Stack.v and FormulaText.v) and memory exhaustion; line counters beyond
2^32 (except in Cursor.v); the text of operating system errors (an input); clap's
help and usage texts; LSP fields the handlers ignore; writing to a closed pipe; debug-build overflow checks except
in Cursor.v and where a definition says so; `Debug` output.
