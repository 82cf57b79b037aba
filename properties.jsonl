{"id": "C01", "title": "Reported lines are true source lines", "statement": "Whenever the tokenizer delivers a token (or a lexical error), the line it reports for it is one plus the number of newline bytes that precede the token's first byte in the document, no matter how many tokens were read or merely peeked at before, and regardless of comments and blank lines.", "quantifier": "every document (byte string), every interleaving of peeks and reads starting from a fresh tokenizer", "why_tests_cant": "Line tracking is an invariant of an unbounded interleaving of peeks and reads over arbitrary text; tests sample a few documents.", "anchors": ["src/lexical_analyzer/tokenizer.rs: LexicalAnalyzer::parse, skip_whitespaces, lookahead, get_token, get_last_token_position"]}
{"id": "C02", "title": "Peeking is transparent", "statement": "Peeking at the next token never changes what is subsequently read: a read after any number of peeks returns exactly the token, line and continuation that the read alone would have returned, and peeking is idempotent. The peeked token equals the token read next, except exactly when the token read is `<=` or `>=`, where the peek reports `<` or `>`.", "quantifier": "every document and every tokenizer position reachable in it", "why_tests_cant": "Equality of two stateful operations in all states; the exception was not noticed by the existing tests.", "anchors": ["src/lexical_analyzer/tokenizer.rs: lookahead, get_token, ordering_type, peek_next_char"]}
{"id": "C03", "title": "Layout and comments are insignificant", "statement": "Inserting whitespace, or a comment terminated by a newline, in front of a token and behind a delimiter changes no token that is read and no token after it; only line numbers move, by exactly the number of inserted newlines.", "quantifier": "every document suffix, every whitespace run and every comment text", "why_tests_cant": "Ranges over all insertions at all token boundaries of all documents.", "anchors": ["src/lexical_analyzer/tokenizer.rs: skip_whitespaces, parse (comment branch)"]}
{"id": "C04", "title": "Tokenization makes progress", "statement": "For a document whose last byte is a delimiter (whitespace or parenthesis), every read either reports end of file, or reports an error, or strictly consumes input; hence the token sequence of the document is finite. The hypothesis is needed: when the document ends inside an identifier the tokenizer drops its last character and then returns the empty identifier for ever without advancing.", "quantifier": "every document ending in a delimiter and every position in it; for the boundary part, every document ending in an identifier character", "why_tests_cant": "A liveness claim about an unbounded sequence of reads.", "anchors": ["src/lexical_analyzer/tokenizer.rs: peek_lexeme, get_token"]}
{"id": "C05", "title": "Tokenizing ASCII text never crashes", "statement": "No read or peek crashes on an ASCII document that ends with a newline. Outside that class there are crashing documents: a document ending in an unterminated comment, in a lone `?` or `:`, or containing certain non-ASCII bytes.", "quantifier": "every ASCII document ending in newline, every position; existential for the boundary", "why_tests_cant": "Absence of out-of-bounds indexing/unwrap panics over all inputs.", "anchors": ["src/lexical_analyzer/tokenizer.rs: parse, peek_lexeme (slice indexing, from_utf8 unwrap)"]}
{"id": "C06", "title": "Token text round trip", "statement": "Writing any sequence of printable tokens (with a space after each) and tokenizing the text gives back exactly that sequence, followed by end of file.", "quantifier": "every finite sequence of writable tokens", "why_tests_cant": "An algebraic law over unbounded token sequences.", "anchors": ["src/lexical_analyzer/tokenizer.rs: parse", "src/lexical_analyzer/token_types.rs: Display"]}
{"id": "C07", "title": "Tokens carry only valid content", "statement": "Every identifier token is valid UTF-8 made of bytes that are (as Latin-1) letters, digits, underscore or dash, so in an ASCII document identifiers consist only of ASCII letters, digits, underscore and dash; every integer token is between 0 and 2^63-1 and is the decimal value of the digits read; a digit sequence whose value exceeds 2^63-1 is rejected; the error `invalid real number` is never reported.", "quantifier": "every document and every position in it", "why_tests_cant": "Input-output relation over all byte strings, plus unreachability of an error.", "anchors": ["src/lexical_analyzer/tokenizer.rs: peek_lexeme, peek_number, parse", "src/output/errors/lexical.rs: LexicalErrorType"]}
{"id": "C08", "title": "Parsing terminates", "statement": "Parsing (as a domain or a problem) terminates for every document whose last byte is a delimiter, within a number of loop iterations linear in its length. The hypothesis is needed: there is a truncated document on which parsing loops for ever.", "quantifier": "every document ending in a delimiter", "why_tests_cant": "Termination of nested loops for all inputs; non-termination cannot be observed by a test at all.", "anchors": ["src/syntactic_analyzer/parser.rs: parse", "src/syntactic_analyzer/problem_parser/list_parser.rs: parse_args", "src/syntactic_analyzer/domain_parser/formula_parser.rs: parse_formula", "src/syntactic_analyzer/problem_parser/init_tn_parser.rs"]}
{"id": "C09", "title": "Parsing a document does not crash", "statement": "For every ASCII document ending in a newline, parsing either succeeds or returns an error, except that a problem document may crash, and then only because a token other than `(`, `)` or end of file occurs where a problem block should start; a domain document never crashes the parser.", "quantifier": "every ASCII document ending in newline", "why_tests_cant": "Absence of panics over all inputs.", "anchors": ["src/syntactic_analyzer/parser.rs", "src/syntactic_analyzer/problem_parser/router.rs: parse_problem (panic!)"]}
{"id": "C10", "title": "Parser accepts exactly its grammar", "statement": "A domain document is accepted exactly when its token sequence starts with a sentence of the documented grammar, and the syntax tree returned is the one the grammar assigns (names, types, order, nesting and line numbers); the assigned tree is unique. The same holds for problem documents.", "quantifier": "every document (token sequence)", "why_tests_cant": "Two-sided correspondence between a recursive-descent parser and a declarative grammar over all token sequences.", "anchors": ["src/syntactic_analyzer/domain_parser/*.rs", "src/syntactic_analyzer/problem_parser/*.rs"]}
{"id": "C11", "title": "Writing then parsing a document gives it back", "statement": "For every well-formed domain or problem syntax tree, parsing its canonical textual form succeeds and returns that same tree (with every position at the line where it was written).", "quantifier": "every well-formed syntax tree of any size and nesting depth", "why_tests_cant": "Round-trip law over an infinite set of trees.", "anchors": ["src/syntactic_analyzer/parser.rs: parse", "src/syntactic_analyzer/syntax_tree/*.rs"]}
{"id": "C12", "title": "Syntax trees satisfy the invariants later phases unwrap", "statement": "In every syntax tree produced by parsing, a symbol has a type position exactly when it has a type, a non-empty partial ordering always has a recorded position, and no implication node occurs; so the unchecked unwraps of these positions in later phases never crash.", "quantifier": "every document that parses", "why_tests_cant": "An invariant of all parser outputs.", "anchors": ["src/syntactic_analyzer/problem_parser/list_parser.rs", "src/syntactic_analyzer/problem_parser/init_tn_parser.rs: parse_htn", "src/semantic_analyzer/analyzers/domain_analyzer.rs: ordering_pos.unwrap()", "src/semantic_analyzer/type_checker/generic_type_checker.rs: type_pos.unwrap()"]}
{"id": "C13", "title": "Every reported position lies in the document", "statement": "Every line number in any error returned by verification (lexical, syntactic or semantic) and in any warning is at least 1 and at most one plus the number of newlines of the document it refers to; so the conversion to zero-based editor positions never underflows.", "quantifier": "every domain/problem document pair", "why_tests_cant": "Requires tracking positions through the entire pipeline for all inputs.", "anchors": ["src/lib.rs: verify", "src/language_server/diagnostic_utils.rs: From<ParsingError> for Diagnostic"]}
{"id": "C14", "title": "What follows the closing parenthesis is ignored", "statement": "If a domain or problem document parses successfully having read a closing parenthesis last, then appending any bytes to the consumed part leaves the result unchanged. In particular text after the end, and (in problems) every block written after a `:goal` block, is neither parsed nor checked.", "quantifier": "every document that parses and every continuation", "why_tests_cant": "Universal over arbitrary continuations; exposes silently unchecked input.", "anchors": ["src/syntactic_analyzer/domain_parser/router.rs: parse_domain", "src/syntactic_analyzer/problem_parser/router.rs: parse_problem (Goal arm)"]}
{"id": "C15", "title": "Accepted domains have no duplicate declarations", "statement": "If verification of a domain succeeds, then requirements, predicate names, compound task names, action names, method names, and the parameter names within each action and each method are pairwise distinct; conversely a duplicate error names an element that really is declared twice and gives the positions of two distinct declarations of it. Constants, types and compound-task parameters are not covered.", "quantifier": "every domain", "why_tests_cant": "Universal over domains of any size; error accuracy is a relational claim.", "anchors": ["src/semantic_analyzer/analyzers/domain_analyzer.rs: verify_domain, verify_predicates, verify_compound_tasks, check_duplicate_requirements"]}
{"id": "C16", "title": "Cyclic type hierarchies are rejected, acyclic ones never", "statement": "Verification reports a cyclic type declaration exactly when the subtype relation declared in `:types` has a cycle of any length (and requirements contain no duplicate).", "quantifier": "every list of type declarations", "why_tests_cant": "Cycle detection over graphs of unbounded size.", "anchors": ["src/semantic_analyzer/type_checker/generic_type_checker.rs: verify_type_hierarchy"]}
{"id": "C17", "title": "Only declared predicates are used", "statement": "If verification of a domain succeeds, every predicate occurring anywhere in a precondition or effect of an action or in a precondition of a method, including under quantifiers and nested connectives, is declared.", "quantifier": "every domain and every occurrence at any nesting depth", "why_tests_cant": "Structural induction over formulas.", "anchors": ["src/semantic_analyzer/undefined_elements.rs: check_predicate_declarations", "src/semantic_analyzer/analyzers/domain_analyzer.rs"]}
{"id": "C18", "title": "Atoms of accepted domains are well-typed", "statement": "If verification succeeds, every atom outside quantifiers in action and method formulas has the declared arity and each argument is a parameter or constant whose type is the declared type or a (transitive) subtype of it; conversely a type or arity error is only reported for an atom violating this.", "quantifier": "every domain, every non-quantified atom", "why_tests_cant": "Relates a worklist-style checker with the transitive subtype relation for all domains.", "anchors": ["src/semantic_analyzer/type_checker/domain_type_checker.rs: check_formula", "src/semantic_analyzer/type_checker/generic_type_checker.rs: is_var_type_consistent"]}
{"id": "C19", "title": "Method heads and subtasks of accepted domains are well-typed", "statement": "If verification succeeds, each method decomposes a declared compound task, with the declared arity and compatible argument types, and each subtask names a declared action or compound task, with the declared arity and compatible argument types.", "quantifier": "every domain, every method, every subtask", "why_tests_cant": "Universal over domains.", "anchors": ["src/semantic_analyzer/type_checker/domain_type_checker.rs: is_task_consistent", "src/semantic_analyzer/analyzers/domain_analyzer.rs: verify_domain"]}
{"id": "C20", "title": "Ordering constraints of accepted inputs are acyclic", "statement": "If verification succeeds, the ordering constraints of every method and of the initial task network have no cycle; a cyclic-ordering error is only reported when there is one, and it never crashes while building that error.", "quantifier": "every domain/problem, every ordering of any size", "why_tests_cant": "Cycle detection over unbounded graphs.", "anchors": ["src/syntactic_analyzer/syntax_tree/nodes/htn.rs: TaskOrdering::is_acyclic", "src/semantic_analyzer/analyzers/domain_analyzer.rs", "src/semantic_analyzer/analyzers/problem_analyzer.rs"]}
{"id": "C21", "title": "Domain verification decides well-formedness exactly", "statement": "Verification of a parsed domain without existential quantifiers returns success if and only if the domain satisfies the declarative well-formedness conditions (no duplicates, acyclic types, declared predicates/tasks, arities, typing, acyclic orderings); it never crashes.", "quantifier": "every parsed domain", "why_tests_cant": "Two-sided equivalence with a declarative specification over all domains.", "anchors": ["src/semantic_analyzer/analyzers/domain_analyzer.rs: verify_domain"]}
{"id": "C22", "title": "Problem verification decides well-formedness exactly", "statement": "For an accepted domain, verification of a parsed problem returns success if and only if the problem satisfies the declarative conditions (distinct objects with declared types, init atoms declared/arity/typed over objects and constants, goal atoms likewise, initial task network subtasks declared/arity/typed and acyclic ordering).", "quantifier": "every accepted domain and parsed problem", "why_tests_cant": "Two-sided equivalence over all pairs.", "anchors": ["src/semantic_analyzer/analyzers/problem_analyzer.rs: verify_problem", "src/semantic_analyzer/type_checker/problem_type_checker.rs"]}
{"id": "C23", "title": "No-primitive-refinement warnings are never false alarms", "statement": "If verification warns that a compound task has no primitive refinement, then indeed no sequence of method applications turns that task into a (possibly empty) sequence of actions. Names must not be shared between tasks and actions: verification accepts an action with the name of a compound task, and then a false warning is possible. The converse fails: a task all of whose methods recurse for ever while mentioning an action is not warned about.", "quantifier": "every accepted domain whose task and action names are distinct, every compound task, every iteration order of hash containers", "why_tests_cant": "Quantifies over all (infinitely many) decompositions.", "anchors": ["src/semantic_analyzer/analyzers/domain_analyzer.rs: verify_domain (warnings)", "src/semantic_analyzer/tdg.rs: reachable, compute_nullables"]}
{"id": "C24", "title": "Every task that can vanish is found nullable", "statement": "The computed set of nullable tasks contains every task that can be decomposed into the empty sequence. It may contain more: whether it does can depend on the random iteration order of hash sets, so two runs on the same domain can give different warnings. In no order does it contain a task that leads to no task with an empty method, or more precisely one all of whose methods have a subtask leading to no task of the kind being defined.", "quantifier": "every accepted domain with at least one compound task; every hash iteration order", "why_tests_cant": "A fixpoint computation compared with an inductive definition, under nondeterminism.", "anchors": ["src/semantic_analyzer/tdg.rs: compute_nullables"]}
{"id": "C25", "title": "Task reachability is exact", "statement": "The sets of actions and compound tasks computed as reachable from a task are exactly those reachable by the reflexive-transitive closure of the one-step decomposition relation, and the search terminates.", "quantifier": "every domain with distinct task and action names, and every task", "why_tests_cant": "Graph search correctness over unbounded graphs.", "anchors": ["src/semantic_analyzer/tdg.rs: reachable"]}
{"id": "C26", "title": "Recursion classification", "statement": "Whenever the metadata command delivers a result, the recursion class is `non-recursive` exactly when no task can reach itself through decomposition; the reported class does not depend on hash iteration order given the nullable set; and a reported recursion cycle is a genuine cycle of the task decomposition graph.", "quantifier": "every domain with distinct task and action names, totally or partially ordered; every hash iteration order", "why_tests_cant": "Exhaustive path exploration over unbounded graphs and all schedules of hash iteration.", "anchors": ["src/semantic_analyzer/tdg.rs: get_recursion_type, get_prefix, get_suffix"]}
{"id": "C27", "title": "Metadata computation terminates with compound tasks and hangs without", "statement": "The nullable computation terminates on every domain that declares at least one compound task, and never terminates on any domain that declares none. The whole metadata command terminates with a result on every totally ordered or non-recursive domain with a compound task.", "quantifier": "every domain", "why_tests_cant": "Termination/non-termination cannot be tested.", "anchors": ["src/semantic_analyzer/tdg.rs: compute_nullables", "src/lib.rs: get_metadata"]}
{"id": "C28", "title": "Verification errors do not depend on hash order", "statement": "Whether verification succeeds, and the exact error when it does not, is a function of the documents alone; the set of warnings for tasks depends on hash order only through the nullable set.", "quantifier": "every document pair and any two hash iteration orders", "why_tests_cant": "Quantifies over all iteration orders.", "anchors": ["src/lib.rs: verify", "src/semantic_analyzer/analyzers/domain_analyzer.rs"]}
{"id": "C29", "title": "Problem verification extends domain verification", "statement": "Verifying a domain together with a problem reports a domain error if there is one, before looking at the problem; and success with a problem implies success of the domain alone with the same warnings.", "quantifier": "every pair of documents", "why_tests_cant": "Universal over pairs.", "anchors": ["src/lib.rs: verify"]}
{"id": "C30", "title": "Printing an error never crashes, with one exception", "statement": "Rendering any error as text succeeds unless it is a type error with neither an expected nor a found type; domain verification never returns such an error; problem verification can (an untyped predicate parameter filled with a typed object).", "quantifier": "every error returned by verification of any documents", "why_tests_cant": "Unreachability of a panic arm over all inputs.", "anchors": ["src/output/errors/semantic.rs: Display (unreachable!)", "src/semantic_analyzer/type_checker/problem_type_checker.rs: check_predicate_instantiation"]}
{"id": "C31", "title": "Editor diagnostics agree with verification", "statement": "The language server reports no diagnostic for a domain document exactly when verification of that document succeeds, and otherwise reports exactly the first error verification would report; for a problem with a valid domain likewise. Publishing a duplicate-definition error crashes. With a broken domain, the problem document receives the domain's error (with the domain's line number) followed by the problem's syntax error; without a domain only the syntax of the problem is checked; a document whose header is not recognised gets an empty report although verification always rejects it.", "quantifier": "every document (pair)", "why_tests_cant": "Agreement of two implementations of the pipeline over all inputs.", "anchors": ["src/language_server/diagnostic_utils.rs: diagnose_domain, diagnose_problem", "src/lib.rs: verify"]}
{"id": "C32", "title": "The language server diagnoses the latest synchronized text", "statement": "After any history of open/save/change notifications, a diagnostic request for a document is computed from the text of the most recent notification for that document, independent of notifications for other documents; documents never synchronized are rejected. When one change notification carries several content changes only the first counts. Notifications never fail except a save without text of an unreadable file. The domain of a problem is taken from disk, not from the synchronized documents.", "quantifier": "every finite history of notifications", "why_tests_cant": "Quantifies over unbounded histories.", "anchors": ["src/language_server/request_handler.rs: did_open, did_save, did_change, diagnostic, sync"]}
{"id": "C33", "title": "JSON export is faithful", "statement": "If two document pairs are exported to the same JSON text, their syntax trees (names, types, line numbers, structure) are equal, except that real numbers are only determined by value (0.5 and 0.50 are exported alike). The order in which the hash map lists domain and problem does not matter.", "quantifier": "every pair of syntax trees", "why_tests_cant": "Injectivity over an infinite set.", "anchors": ["src/lib.rs: to_json", "src/syntactic_analyzer/syntax_tree/*.rs (Serialize)"]}
{"id": "C34", "title": "Command line outcome", "statement": "The verify command prints success exactly when verification succeeds and prints the warning/error text otherwise; it crashes exactly when verification does or the error has no text. The to_json command writes a file exactly when export succeeds, with the exported text. The exit status of every command is zero whenever it does not crash, including when verification fails.", "quantifier": "every file content and argument combination", "why_tests_cant": "Universal over file contents.", "anchors": ["src/bin/hddl_analyzer/main.rs", "src/bin/hddl_analyzer/cli_args.rs"]}
{"id": "C35", "title": "Question marks are cosmetic", "statement": "A name written with or without a leading `?` gives the same token, so verification cannot distinguish variables from constants: replacing `?x` by `x` (for a non-reserved x) changes no token after the replacement.", "quantifier": "every identifier and every continuation", "why_tests_cant": "Universal over names and contexts.", "anchors": ["src/lexical_analyzer/tokenizer.rs: parse ('?' branch)"]}
{"id": "C36", "title": "Names and requirements are not cross-checked", "statement": "The outcome of verification does not depend on the domain name, on the problem name, on the domain name that a problem declares to belong to, on the problem's requirements, nor (as long as they are distinct) on the domain's requirements.", "quantifier": "every pair of documents differing only there", "why_tests_cant": "Non-interference: a relational property over pairs of inputs.", "anchors": ["src/syntactic_analyzer/parser.rs: parse_domain_header, parse_problem_header", "src/lib.rs: verify"]}
{"id": "C37", "title": "Declaration order does not influence acceptance", "statement": "Permuting the declarations inside a domain (types, constants of distinct names, predicates, compound tasks, actions, methods) does not change whether verification succeeds.", "quantifier": "every domain and every permutation of its declarations", "why_tests_cant": "Quantifies over all permutations.", "anchors": ["src/semantic_analyzer/analyzers/domain_analyzer.rs: verify_domain"]}
{"id": "C38", "title": "A method without task network ends the domain", "statement": "Every block of a domain contributes to its syntax tree as long as every method has a task network. After a method with a precondition but without :subtasks or :ordered-subtasks, the parenthesis written to close the method closes the domain instead: all later declarations are silently dropped and the rest of the document is not read.", "quantifier": "every sequence of blocks, every such method and every continuation of the document", "why_tests_cant": "Universal over all documents and continuations; the loss is silent.", "anchors": ["src/syntactic_analyzer/domain_parser/method_parser.rs", "src/syntactic_analyzer/problem_parser/init_tn_parser.rs: parse_htn", "src/syntactic_analyzer/parser.rs: parse"]}
{"id": "C39", "title": "The recursion class is the maximum over all simple cycles", "statement": "The class in the metadata report is the largest class of any simple cycle of the task decomposition graph (recursive < growing with empty prefix < empty < growing and shrinking), where the class of a cycle is determined by what its methods do before and after the subtask on the cycle and by the reported nullable set; the reported cycle has the reported class. Because a method that starts with the first task of the cycle counts as having an empty prefix, empty recursion is sometimes reported although no task turns into itself alone.", "quantifier": "every domain with distinct task and action names for which metadata is delivered; every hash iteration order", "why_tests_cant": "A maximum over exponentially many cycles, found by a search in random order.", "anchors": ["src/semantic_analyzer/tdg.rs: get_recursion_type, get_prefix, get_suffix", "src/output/metadata.rs"]}
{"id": "C40", "title": "Metadata needs total orders on recursive methods", "statement": "If a cycle of the decomposition graph passes through a method with partially ordered subtasks, the metadata command delivers no result unless the method has exactly one ordering constraint less than subtasks, and also if an identifier ordered after an occurrence of the cyclic subtask contains the identifier of an occurrence as a substring (the loop never ends). Given distinct names, the command delivers a result exactly if all names are declared, there is a compound task, and at every step of every cycle the method is totally ordered or meets these two conditions and everything ordered after an occurrence of the cyclic subtask identifies a subtask and is not ordered after itself. Since orderings over unknown identifiers are accepted, not every accepted domain has metadata.", "quantifier": "every domain with distinct task and action names, every such cycle, every hash iteration order", "why_tests_cant": "Non-termination and crashes quantified over all cyclic domains.", "anchors": ["src/semantic_analyzer/tdg.rs: get_prefix, get_suffix", "src/lib.rs: get_metadata"]}
{"id": "C41", "title": "Export is syntactic", "statement": "to_json succeeds exactly when the documents parse as a domain and (if given) a problem, and its errors are exactly the parser's; so everything that verification accepts can be exported, and semantically invalid documents are exported too.", "quantifier": "every pair of documents", "why_tests_cant": "Universal over documents; tests only show samples of either side.", "anchors": ["src/lib.rs: to_json", "src/syntactic_analyzer/parser.rs: parse"]}
{"id": "C42", "title": "Verification and metadata do not depend on layout", "statement": "Two documents with the same token sequence get the same verdict, the same warnings and the same metadata; errors name the same things on corresponding lines. In particular inserting blanks, line breaks or comments after a delimiter of the domain or of the problem leaves reported lines before the insertion where they are, moves those behind it by exactly the number of inserted line breaks, and changes nothing else.", "quantifier": "every pair of documents with the same tokens, every insertion point and every inserted gap, every hash iteration order", "why_tests_cant": "A relational property over all pairs of documents and all insertion points.", "anchors": ["src/lib.rs: verify, get_metadata", "src/lexical_analyzer/tokenizer.rs: parse", "src/semantic_analyzer/analyzers/domain_analyzer.rs: verify_domain"]}
{"id": "C43", "title": "Verification does not depend on the choice of names", "statement": "Renaming types, predicates, tasks and actions, methods, variables/constants/objects and subtask ids consistently (injectively, per kind) in the domain and the problem gives the same verdict, the same error or warnings with the names renamed, and the same lines; replacing every identifier of the texts by its image under an injective function also preserves whether they parse. The same holds for the metadata report if subtask ids are kept; renaming subtask ids can turn an answer into an endless loop, because ids are compared as substrings.", "quantifier": "every domain, problem and injective renaming; every hash iteration order", "why_tests_cant": "Equivariance: quantifies over all renamings of all documents.", "anchors": ["src/semantic_analyzer/analyzers/domain_analyzer.rs: verify_domain", "src/semantic_analyzer/analyzers/problem_analyzer.rs: verify_problem", "src/semantic_analyzer/tdg.rs: get_prefix, get_suffix, compute_nullables"]}
{"id": "C44", "title": "The JSON export determines verification and metadata", "statement": "Documents with the same exported JSON text have exactly the same verification outcome (error or warnings, in order) and the same metadata outcome, whatever they look like otherwise.", "quantifier": "all pairs of documents with the same exported text; every hash iteration order", "why_tests_cant": "Quantifies over pairs of documents with equal exports.", "anchors": ["src/lib.rs: to_json, verify, get_metadata"]}
{"id": "C45", "title": "A rejected document is rejected for its first impossible token", "statement": "When a document has a syntax error, the tokens before the reported one are the beginning of some accepted document, and together with the reported token they are the beginning of none; the reported line is the line of that token. What is written behind it does not influence the report, and the text before it can be completed to an accepted document. A lexical error is reported only after a beginning that can be completed, and the only crash of the parser itself also stands on the first impossible token.", "quantifier": "every document, every continuation of it", "why_tests_cant": "Quantifies over all completions of all prefixes of all documents (the viable prefix property of the hand-written parser).", "anchors": ["src/syntactic_analyzer/parser.rs: parse", "src/syntactic_analyzer/domain_parser", "src/syntactic_analyzer/problem_parser", "src/output/errors/syntactic.rs"]}
{"id": "C46", "title": "Reports only name words of the documents", "statement": "Every name in a semantic error or warning occurs as an identifier in the domain or the problem, every name in the metadata report occurs in the domain, and an identifier reported as unexpected occurs in the document: no report contains an invented or truncated name.", "quantifier": "every domain, problem and hash iteration order", "why_tests_cant": "Quantifies over all documents; proved by moving a name that does not occur away with a renaming.", "anchors": ["src/semantic_analyzer/analyzers/domain_analyzer.rs: verify_domain", "src/semantic_analyzer/tdg.rs", "src/lib.rs: verify, get_metadata"]}
{"id": "C47", "title": "Messages say where and what, and are unambiguous", "statement": "Every error with one position starts with `line <n>: ` where n is its position in decimal, duplicates name both lines, every name concerned appears in the message, and two different semantic errors have different messages, except that the message does not tell whether a type error is in the arguments of a predicate or of a task, and a wrong number of task arguments is reported without its line. Messages of lexical errors and warnings determine the error and the warning. The words next to a name or number say which it is: expected or found, first or second definition, declared or given number of arguments, and the kind of the thing named.", "quantifier": "every error and every pair of verification runs", "why_tests_cant": "Injectivity of a printing function over all names and numbers.", "anchors": ["src/output/errors/semantic.rs", "src/output/errors/lexical.rs", "src/output/errors/syntactic.rs", "src/output/warnings.rs"]}
{"id": "C48", "title": "The metadata text says what was computed", "statement": "The metadata command prints the numbers of actions, compound tasks and methods declared in the document in decimal, one line for exactly each nullable task, the phrase of exactly the computed recursion class, and a drawing of the cycle from which the cycle can be read back up to the method that closes it; equal texts mean equal metadata up to that method and the order of the nullable tasks.", "quantifier": "every domain for which metadata is delivered, every pair of such domains", "why_tests_cant": "Quantifies over all domains and the inverse of a printing function.", "anchors": ["src/output/metadata.rs: fmt", "src/bin/hddl_analyzer/main.rs", "src/lib.rs: get_metadata"]}
{"id": "C49", "title": "Concurrent handling of messages is serializable", "statement": "However the handlers of the language server are interleaved at their await points, with requests being cancelled and files changing on the disk meanwhile, the replies and the final documents are those of handling the completed messages one at a time, in the order of their completion, each seeing on the disk only what was there while it was handled. Every request is answered at most once, and the document under diagnosis does not change before the reply.", "quantifier": "every execution: every sequence of arrivals, polls, cancellations and changes of the disk", "why_tests_cant": "Quantifies over all interleavings of unboundedly many handlers.", "anchors": ["src/language_server/request_handler.rs: did_open, did_save, did_change, diagnostic, sync"]}
{"id": "C50", "title": "The language server does not deadlock or starve", "statement": "In every reachable state with an unfinished message some handler can proceed, polling handlers comes to an end for every fixed set of messages, and no handler overtakes one that waits for the lock, so all messages get done unless the server ends. It ends only when a saved file cannot be read, when a request is for a document that is not a file in a readable folder, when a request is for a problem in a folder whose name is not valid UTF-8, when a listed file cannot be read, or when the analysis itself panics or does not return (which an unfinished document can cause).", "quantifier": "every reachable state of every execution, every limit on concurrency", "why_tests_cant": "Liveness over all interleavings; needs a ranking function and an invariant of the lock.", "anchors": ["src/language_server/request_handler.rs: sync, diagnostic", "src/bin/language_server/main.rs"]}
{"id": "C51", "title": "Replies reflect the messages sent before the request", "statement": "If handlers begin in the order of arrival and save notifications carry their text, every diagnostic request is answered from the text the client sent last before the request, although several handlers run at a time, and in the end the server has the text sent last of every document. A save without text, which is read from the disk, can replace a later change by an older text.", "quantifier": "every execution", "why_tests_cant": "A race: the outcome depends on the schedule, which tests do not control.", "anchors": ["src/language_server/request_handler.rs: did_save, did_change, diagnostic"]}
{"id": "C52", "title": "Documents are found on the disk", "statement": "For every file path, however it is escaped in the URL of the document, the folder searched for the domain is that of the file. A saved document without text is read from the path as it is written in the URL: this is the saved file exactly if nothing in the URL is escaped, otherwise the server crashes. A diagnostic request for a document that is not a file crashes the server, and so does one for a problem in a folder whose name is not valid UTF-8.", "quantifier": "every path, every way of escaping it, every file system", "why_tests_cant": "Quantifies over all paths and encodings.", "anchors": ["src/language_server/request_handler.rs: did_save, diagnostic"]}
{"id": "C53", "title": "Accepted models do not go wrong", "statement": "Type soundness: when a domain and a problem are accepted, then in every ground execution (choose objects of the declared types for the parameters of a method, replace a task by its subtasks, perform an action) every task that ever has to be done is declared and gets objects of the declared types, and so does every fact that is ever true, asked for by a precondition or asked for by the goal. Exceptions, each refuted by a document: quantified effects, objects that have the name of a constant, and equalities, which are not checked at all.", "quantifier": "every accepted pair of documents, every execution of unbounded length, every choice of objects", "why_tests_cant": "Quantifies over all executions of all accepted models.", "anchors": ["src/semantic_analyzer/analyzers/domain_analyzer.rs", "src/semantic_analyzer/analyzers/problem_analyzer.rs", "src/semantic_analyzer/type_checker/domain_type_checker.rs: check_formula", "src/semantic_analyzer/type_checker/generic_type_checker.rs"]}
{"id": "C54", "title": "Accepted task networks can be carried out in order", "statement": "The subtasks of every method and of the initial task network of accepted documents can be put in an order that obeys the ordering constraints; however far the initial task network is decomposed, with subtasks inheriting the place of their task, the constraints never become contradictory: some remaining task has no predecessor, and when only actions are left all of them can be performed in an order that obeys all constraints (as far as their preconditions allow). A reported cyclic ordering is one that no order obeys.", "quantifier": "every accepted pair of documents, every decomposition of unbounded depth", "why_tests_cant": "Quantifies over all decompositions; needs an invariant of the order.", "anchors": ["src/syntactic_analyzer/syntax_tree/nodes/htn.rs: TaskOrdering::is_acyclic", "src/semantic_analyzer/analyzers/domain_analyzer.rs", "src/semantic_analyzer/analyzers/problem_analyzer.rs"]}
{"id": "C55", "title": "Documents can be checked piece by piece", "statement": "Adding declarations behind those of an accepted domain gives an accepted domain exactly if the additions have new names and are well-formed themselves: nothing that was accepted becomes wrong, and problems stay accepted. Methods can be removed. The only interference: a new action with the name of a compound task takes its place in subtasks.", "quantifier": "every accepted domain and problem, every extension", "why_tests_cant": "Relates the verdicts on unboundedly many pairs of documents.", "anchors": ["src/semantic_analyzer/analyzers/domain_analyzer.rs", "src/semantic_analyzer/analyzers/problem_analyzer.rs"]}
{"id": "C56", "title": "The first faulty part is the one reported", "statement": "Let a document grow part by part: requirements, types, predicates, compound tasks, actions (name and parameters, precondition, effect), methods (head and precondition, subtasks, ordering); for problems objects, facts, ordering, subtasks, goal. A rejected document has a first part with which it stops being well-formed; the reported error is about that part, and the document that ends there has exactly the same result.", "quantifier": "every rejected domain or problem with any number of faults", "why_tests_cant": "Quantifies over all documents with any combination of faults; a test fixes one combination.", "anchors": ["src/semantic_analyzer/analyzers/domain_analyzer.rs", "src/semantic_analyzer/analyzers/problem_analyzer.rs"]}
{"id": "C57", "title": "The export is valid JSON with the documented fields", "statement": "Whatever to_json returns is a JSON text (RFC 8259): strings are escaped, numbers have no leading zeros, punctuation is balanced. Its value has, under the documented field and variant names, the content of every part of the parsed documents; absent optional parts are null or left out as documented. A text has only one reading and a value describes only one pair of documents, up to the spelling of reals.", "quantifier": "every pair of documents that parses", "why_tests_cant": "Documents contain arbitrary names and unbounded nesting; whether every rendering is parseable and complete is a statement about all of them.", "anchors": ["src/lib.rs", "src/syntactic_analyzer/syntax_tree/domain.rs", "src/syntactic_analyzer/syntax_tree/nodes/symbol.rs", "src/syntactic_analyzer/syntax_tree/nodes/formula.rs", "src/syntactic_analyzer/syntax_tree/nodes/htn.rs"]}
{"id": "C58", "title": "Recursion classes mean what they say", "statement": "NonRecursive is reported exactly if every sequence of method applications from every task network is bounded, and then every execution of every problem ends. A task that can be refined into a network starting with itself, into itself alone, or into itself and tasks that can all vanish makes the reported class at least growing-with-empty-prefix, at least empty-recursion, or grow-and-shrink. In totally ordered domains the converse holds as well, provided that the nullable tasks are computed correctly (they are if whenever a vanishing task is a subtask, the head of the method vanishes too or the subtask has a method without subtasks) and that no method recurses through its first and a later subtask. For partially ordered methods the converse fails.", "quantifier": "every domain for which metadata is computed, every task network, refinements and executions of unbounded length", "why_tests_cant": "Termination and refinability quantify over all executions and all refinement sequences.", "anchors": ["src/semantic_analyzer/tdg.rs: get_recursion_type, compute_nullables", "src/output/metadata.rs"]}
{"id": "C59", "title": "What a syntax error says it expected could really stand there", "statement": "Every syntax error quotes one of a fixed list of expectations, each of which names tokens (an identifier, a parenthesis, certain keywords). Every token named could stand in the place of the reported token: the document up to there, followed by it, can be completed to an accepted document. The reported token is never one of those named. Expectations that claim to be complete (such as 'either ')' ... or '(' ...') name exactly the tokens that can be continued; some others leave out a possible token.", "quantifier": "every document rejected with a syntax error, every token named by the message, every way of writing it", "why_tests_cant": "Quantifies over all rejected documents and over the existence of completions.", "anchors": ["src/syntactic_analyzer/ (all parse functions)", "src/output/errors/syntactic.rs"]}
{"id": "C60", "title": "A lexical error quotes the ill-formed text, and exactly ill-formed texts are errors", "statement": "The tokenizer reports an error exactly if the text after the next gap is one of: an integer larger than 2^63-1, a word (up to the next white space, parenthesis or the last byte) with a character that words may not contain, an unknown word after ':', or a word that is neither reserved nor an identifier. It quotes exactly that word, and the line it stands on. It crashes exactly on an unterminated comment, on a '?' or ':' that ends the document, and on a word that is not UTF-8. In every other case a token is delivered. The quoted text of a rejected document occurs there, on the reported line.", "quantifier": "every tokenizer state, every document", "why_tests_cant": "An exact characterisation of all rejected byte strings; tests cover some.", "anchors": ["src/lexical_analyzer/tokenizer.rs", "src/output/errors/lexical.rs"]}
{"id": "C61", "title": "What nothing refers to can be removed", "statement": "Removing from an accepted domain any number of types, constants, predicates, compound tasks, actions and methods, wherever they are written, gives an accepted domain if nothing that is kept refers to what is removed; a problem that does not refer to it either is accepted with the one domain exactly if it is accepted with the other. For a type it does not suffice that its name is mentioned nowhere: its declaration may be the one that declares its parent.", "quantifier": "every accepted domain, every set of removed declarations, every problem", "why_tests_cant": "Relates the verdicts on unboundedly many pairs of documents.", "anchors": ["src/semantic_analyzer/analyzers/domain_analyzer.rs", "src/semantic_analyzer/analyzers/problem_analyzer.rs", "src/semantic_analyzer/type_checker/generic_type_checker.rs"]}
{"id": "C62", "title": "Standard HDDL documents are read as written", "statement": "A document built by the productions of HDDL for domains and problems (typed lists, predicates, compound tasks, actions with optional precondition and effect, methods with optional precondition and a task network, totally ordered or with ordering and constraints, initial task network, initial state, goal at the end) is accepted, and its tree is the one the productions give: every declaration is there, in order, none is lost. Exceptions, each rejected: imply, when, either, empty conjuncts, numeric functions and effects, methods without a task network; two forms after which the following declaration is silently lost; and of several initial states, task networks or goals only the last is kept.", "quantifier": "every document of the standard form, of any size", "why_tests_cant": "Quantifies over all documents derivable from a grammar with unbounded nesting.", "anchors": ["src/syntactic_analyzer/ (all parse functions)"]}
{"id": "C63", "title": "How long the analysis takes", "statement": "Verification ends: no loop of the parser, of the graph search or of the fixpoint computation goes round more often than the document has bytes. The metadata search makes exactly one round for every chain of methods for pairwise different tasks in which each method has the next one's task as a subtask; hence no polynomial in the length of the document bounds its time, not even for accepted domains without recursion in which every method has a single subtask (k tasks with two methods each need 2^k rounds).", "quantifier": "every pair of documents that ends in a delimiter; every domain for which metadata are computed, all iteration orders of hash maps; every polynomial", "why_tests_cant": "An asymptotic statement about all documents; a test runs finitely many of them.", "anchors": ["src/semantic_analyzer/tdg.rs: reachable, compute_nullables, get_recursion_type", "src/syntactic_analyzer/ (all loops)"]}
{"id": "C64", "title": "Messages show tokens as they are written", "statement": "The token that a syntax error says it found is shown by the word for its kind and a text that is a way to write that very token (a part in parentheses may be left out; a variable is shown without its '?'); a requirement that is declared twice is shown exactly as it is written. A real number is shown by another way to write the same double, with as few decimals as any way to write it has, without its dot if it needs none and without leading zeros. Exceptions: the end of the document is shown as 'End of file', an infinite value as 'inf', define is shown as ':define', and imply is shown as 'when', which is not a way to write it.", "quantifier": "every document rejected with a syntax error, every token, every spelling", "why_tests_cant": "Quantifies over all rejected documents and all tokens they can be rejected at, among them all identifiers and numbers.", "anchors": ["src/lexical_analyzer/token_types.rs", "src/output/errors/syntactic.rs", "src/output/errors/semantic.rs"]}
{"id": "C65", "title": "The tokenizer's positions and arithmetic are exact", "statement": "For a document of less than 2^63 bytes and less than 2^32 - 1 line breaks, whatever sequence of reads and lookaheads the parser makes (its first call is a read, and it goes on only after an opening parenthesis), no addition or subtraction on the cursor or the line counter overflows, every array access and slice is within the document except at the known crashes, and debug and release builds give the same tokens, errors and crashes. Looking ahead before reading anything, or after the one word of a document of one byte, is a crash in a debug build only; with 2^32 - 1 line breaks a debug build crashes and a release build continues with line 0.", "quantifier": "every document below these sizes, every sequence of calls, both kinds of build", "why_tests_cant": "Index and overflow safety for unboundedly many documents and call sequences.", "anchors": ["src/lexical_analyzer/tokenizer.rs", "src/syntactic_analyzer/parser.rs"]}
{"id": "C66", "title": "Warnings, nullables and growth of a domain", "statement": "A task is warned about exactly if no action can be reached from it by decomposition and the metadata of the same domain do not list it as nullable. If tasks, actions or methods are added to a domain, a warning about an old task is one that was justified before (it could not be refined and reached no action), and it was already given if every task that the metadata listed as nullable can indeed vanish; a recursive domain stays recursive, and the class of recursion reported does not fall as long as no task ceases to be listed as nullable. Because the nullables are computed unsoundly, adding a method can otherwise make a warning appear.", "quantifier": "every accepted domain with distinct names and every extension of it, all iteration orders of hash maps (a different one for each run)", "why_tests_cant": "Relates two analyses of one document, and those of unboundedly many pairs of documents.", "anchors": ["src/semantic_analyzer/tdg.rs", "src/semantic_analyzer/analyzers/domain_analyzer.rs", "src/lib.rs: get_metadata"]}
{"id": "C67", "title": "What the analyses look at", "statement": "The metadata, and the tasks that accepted documents are warned about, depend only on the structure of the domain: the names of its tasks and actions, and the names, tasks, subtasks (with identifiers) and orderings of its methods; types, parameters, arguments, constraints and formulas play no role. The whole outcome of verification (warnings, or the error with its line) is the same if negations, weights and equalities are added to or removed from formulas, connectives are exchanged or nested differently, parts are repeated, or the variables of quantifiers are changed; in goals also if implications are replaced or quantified parts are left out. If conjuncts change places the verdict is the same. It does matter whether an atom is quantified over and whether an empty formula is there at all.", "quantifier": "all pairs of documents related in this way, all iteration orders of hash maps", "why_tests_cant": "Relates the outcomes on unboundedly many pairs of documents (non-interference).", "anchors": ["src/syntactic_analyzer/syntax_tree/nodes/formula.rs", "src/semantic_analyzer/undefined_elements.rs", "src/semantic_analyzer/analyzers/domain_analyzer.rs", "src/semantic_analyzer/tdg.rs", "src/semantic_analyzer/analyzers/problem_analyzer.rs"]}
{"id": "C68", "title": "How deep the analyzer's own recursion goes", "statement": "The only functions that call themselves are the tokenizer's (once for each comment), the formula parser, two walks over formulas, and the display of formulas (C85). With a limit on the number of open calls, a run that stays within the limit gives the result of the unlimited program. Reading any text never opens more calls of the formula parser than the text has opening parentheses, plus one; for an accepted domain the number is exactly the deepest nesting among its formulas, for a problem at least that of its goal. The walks of the checks never go more than twice as deep as the parser went, and a successful check goes exactly as deep as the formula is high. The tokenizer has one open call more than there are comments in front of the token. No limit suffices: for every one there is a valid domain of proportional length, and a number of comments in front of any valid domain, that exceeds it.", "quantifier": "all texts, all formulas, all limits", "why_tests_cant": "Unbounded nesting; a crash appears only beyond a depth that depends on the platform, and tests are shallow.", "anchors": ["src/syntactic_analyzer/domain_parser/formula_parser.rs", "src/lexical_analyzer/tokenizer.rs", "src/semantic_analyzer/undefined_elements.rs", "src/syntactic_analyzer/syntax_tree/nodes/formula.rs"]}
{"id": "C69", "title": "Types behave like sets of objects", "statement": "A type is accepted where another is expected exactly if it is contained in it under every assignment of sets of objects to the types that respects the declared parents: in accepted domains every argument of an atom (outside quantifiers), method head or subtask denotes a value that belongs to the parameter's type, and for every type error reported in a domain there are sets of objects that show it (or typed and untyped were mixed). Weaker demands are safe: if an accepted domain gets further types and subtypes, wider types for parameters of predicates and tasks, and narrower types for constants and parameters of methods (and the problem narrower objects and parameters of the initial network), it is still accepted, with the same tasks in its warnings, as long as the new types are declared and not cyclic. The other direction fails, there is no type of everything: untyped parameters accept no typed argument and `object` must be declared.", "quantifier": "all documents, all assignments of sets to types, all pairs of documents related in this way", "why_tests_cant": "Quantifies over all interpretations of the types and relates the verdicts on unboundedly many pairs of documents.", "anchors": ["src/semantic_analyzer/type_checker/domain_type_checker.rs", "src/semantic_analyzer/type_checker/problem_type_checker.rs", "src/semantic_analyzer/analyzers/domain_analyzer.rs"]}
{"id": "C70", "title": "Parsing is one pass over the text", "statement": "For every text, whether it parses or not, the parser calls the tokenizer in one pass: each call starts where the one before it stopped, the tokens read are exactly those of the text in order, none skipped or read twice, nothing is called after a failure or after the end has been read, and no token is looked at more than twice before it is read. So the number of calls is at most three per token, for a text that ends in a delimiter at most three times its length plus six, and all calls together go over at most three times the text. A text cut off in the middle of a word is the exception: calls without end.", "quantifier": "all texts, all outcomes of parsing", "why_tests_cant": "Bounds the work on every text, including ill-formed ones, and speaks about calls that the result does not show.", "anchors": ["src/syntactic_analyzer/parser.rs", "src/lexical_analyzer/tokenizer.rs"]}
{"id": "C71", "title": "Ways to write the order of subtasks", "statement": "Verification looks at ordering constraints for contradictions only: documents that differ in the order of subtasks, their identifiers and constraints have the same outcome, warnings or error, as long as no order contradicts itself. In particular `:ordered-subtasks` is a shorthand: writing the same order as constraints between distinct identifiers means the same (exactly one order of the subtasks obeys it) and gives the same outcome. The nullable tasks and counts in the metadata do not depend on orders either, nor does the question whether the domain is recursive; but the class of recursion can rise when the order of a method is written out (what comes before the recursive task is then ignored; it never falls), and there are metadata only if no identifier directly after an occurrence of the recursive task contains the identifier of an occurrence. A constraint that follows from the others makes the metadata command crash.", "quantifier": "all pairs of documents related in this way, all iteration orders of hash maps", "why_tests_cant": "Relates the outcomes for two documents, for all task networks and all ways to order them; a test compares single documents.", "anchors": ["src/syntactic_analyzer/syntax_tree/nodes/htn.rs", "src/semantic_analyzer/tdg.rs", "src/semantic_analyzer/analyzers/domain_analyzer.rs", "src/semantic_analyzer/analyzers/problem_analyzer.rs"]}
{"id": "C72", "title": "What warnings and reachability say about plans", "statement": "If an accepted problem asks for a task that verification warned about (no primitive refinement), the problem has no plan: no sequence of method applications and actions, whatever the preconditions and the order of tasks, does all initial tasks; the same holds from every state in which such a task is left. Every task that ever has to be done and every action that is ever performed is listed by `reachable` for an initial task. Hence everything that is not listed can be removed from the domain: the documents remain accepted, the executions are the same, and so are the states from which all tasks can be done. (The absence of warnings promises nothing: a problem without any plan can pass without one.)", "quantifier": "all accepted pairs of documents in which no task has the name of an action, all executions, all iteration orders of hash maps", "why_tests_cant": "Speaks about all executions of all problems, of unbounded length, and about the difference of two domains; tests never execute a problem.", "anchors": ["src/semantic_analyzer/tdg.rs", "src/semantic_analyzer/analyzers/domain_analyzer.rs", "src/semantic_analyzer/analyzers/problem_analyzer.rs"]}
{"id": "C73", "title": "Constants and objects are interchangeable", "statement": "Whether something is declared as a constant of the domain or as an object of the problem makes no difference to a problem, as long as the domain does not use it: with the declarations moved (several at once, wherever they are written) the same pairs of documents are accepted and they have the same executions. This presupposes that no name is declared twice, that the types of the moved declarations are declared (verification checks the types of objects but not those of constants), and that no parameter of the initial task network has the name of one of them (objects hide these parameters, constants are hidden by them); without either of the last two an accepted pair can become a rejected one.", "quantifier": "all pairs of domains and problems related in this way, all iteration orders of hash maps, all executions", "why_tests_cant": "Compares verdicts and executions for all documents in two forms; a test checks single documents.", "anchors": ["src/semantic_analyzer/analyzers/problem_analyzer.rs", "src/semantic_analyzer/undefined_elements.rs", "src/semantic_analyzer/analyzers/domain_analyzer.rs"]}
{"id": "C74", "title": "Parameters are local", "statement": "The names of parameters matter only inside the declaration that introduces them: if the parameters of predicates and tasks are renamed in any way, and those of actions, methods and the initial task network (with the variables of their quantifiers) consistently, separately in every declaration and without capturing a name that is used but not declared there, then the same documents are accepted, metadata are equal, the same tasks are warned about, and the executions are the same. The parameters of the initial task network must also keep clear of the objects. Where a parameter gets the name of a constant used in its scope, or one of the initial task network that of an object, an accepted document can become a rejected one.", "quantifier": "all pairs of domains and problems related in this way, all renamings, all iteration orders of hash maps, all executions", "why_tests_cant": "Compares verdicts, analyses and executions for all documents under all renamings; a test checks single documents.", "anchors": ["src/semantic_analyzer/type_checker/domain_type_checker.rs", "src/semantic_analyzer/type_checker/generic_type_checker.rs", "src/semantic_analyzer/analyzers/domain_analyzer.rs", "src/semantic_analyzer/analyzers/problem_analyzer.rs"]}
{"id": "C75", "title": "Documents in any alphabet", "statement": "The tokenizer's notion of UTF-8 is the standard one: the accepted byte sequences are exactly the encodings (shortest form) of sequences of Unicode characters without surrogates. No document that is UTF-8 text and ends with a line break crashes the tokenizer as long as tokens are delivered; the parser crashes on it only for a stray token in a problem, never on a domain. A word in such a document is a name exactly if every character is a letter, digit, '_' or '-' and every byte of its encoding, read as a Latin-1 character, is a letter or digit; otherwise the word is reported as invalid identifier. Hence of the characters U+00C0 to U+00FF exactly \u00ea \u00f2 \u00f3 \u00f5 \u00f9 \u00fa \u00fc \u00fd \u00fe can be used in names. Without the final line break, or when reading goes on after an error, text can crash the tokenizer.", "quantifier": "all byte sequences, all documents that are UTF-8 text ending with a line break, all words, every classification of characters above U+00FF", "why_tests_cant": "All sequences of characters of all alphabets; tests use a few words.", "anchors": ["src/lexical_analyzer/tokenizer.rs", "src/syntactic_analyzer/parser.rs"]}
{"id": "C76", "title": "Faults can be isolated", "statement": "Removing methods, preconditions, effects, members of formulas, subtasks or ordering constraints from an accepted domain gives an accepted domain, and removing facts, goals or parts of the initial task network from an accepted problem gives an accepted problem. Conversely faults in bodies never arise from combinations: a domain is accepted exactly if every one of its pieces is, a piece being the text of all declarations with at most one path through one formula, one subtask or one ordering block left in their bodies; so every rejected domain has a rejected piece with one culprit. Likewise for problems: objects with at most one fact, one path through the goal, one initial subtask or the ordering block. Ordering blocks cannot be divided further and declarations cannot be left out.", "quantifier": "all documents that parse, all ways to remove parts, all pieces", "why_tests_cant": "All ways to take documents apart; the combinations of faults and correct parts are unbounded.", "anchors": ["src/semantic_analyzer/analyzers/domain_analyzer.rs", "src/semantic_analyzer/analyzers/problem_analyzer.rs", "src/semantic_analyzer/type_checker/domain_type_checker.rs", "src/semantic_analyzer/undefined_elements.rs"]}
{"id": "C77", "title": "A whole session with the language server", "statement": "From the first to the last message of a session, every request is answered exactly once and in order, unless the server ends. Nothing sent before the handshake counts: requests are refused and notifications are without effect; the handshake announces that whole texts are wanted and diagnostics can be asked for, and a second one is refused; after shutdown every request is refused and no text changes; after exit nothing is answered. If the editor follows the announced capabilities (whole texts, one change at a time, saves with the text or of a file that has it), a document is diagnosed as the editor shows it, whatever happened to other documents, and a domain is shown without errors exactly when verification accepts its text; a document the editor has not mentioned is refused by name. Every diagnosis is logged with two messages, the second saying truly which kind of document was found and whether a domain was found in its folder. Closing a document has no effect: it is still diagnosed, from its last text.", "quantifier": "every sequence of messages, every editing session, every file system at every moment", "why_tests_cant": "Ranges over unbounded sessions; what a message does depends on all messages before it. The tests start no server.", "anchors": ["src/language_server/request_handler.rs: initialize, initialized, shutdown, did_open, did_save, did_change, diagnostic", "src/bin/language_server/main.rs: main"]}
{"id": "C78", "title": "Reports are short and do not repeat themselves", "statement": "An accepted domain gets at most one warning per compound task, always a declared one with its own line, and on the command line every warning is one line, no two alike, followed by one Ok line. A rejected document gets exactly one message; if the fault is semantic, the message is a single line. The metadata name no nullable task twice and no more nullable tasks than there are compound tasks (if methods are for compound tasks and no two declarations share a name); the reported cycle visits every task on it once before it returns to the first; the number of lines printed is determined by these. The editor gets at most one diagnostic for a domain and at most two for a problem, two only if the problem and its domain are both at fault.", "quantifier": "every document or pair of documents, every hash order", "why_tests_cant": "Ranges over all documents and hash orders; tests compare a few reports.", "anchors": ["src/lib.rs: verify, get_metadata", "src/semantic_analyzer/analyzers/domain_analyzer.rs: verify_domain", "src/output/metadata.rs: Display", "src/bin/hddl_analyzer/main.rs: main", "src/language_server/diagnostic_utils.rs"]}
{"id": "C79", "title": "The command line", "statement": "A command line is accepted exactly if it names one of the three commands and gives the domain once and the problem and the output file at most once each, in any order and in any of the five usual spellings of an option, and then it has exactly one meaning; the lines in the README mean what the README says; every path that is UTF-8 can be named, even one that starts with a hyphen. The help is shown exactly if it is asked for in place of a command or of an option, and all is well before it. Exit status 2 says that the command line is wrong and nothing else, and then no file has been touched. Only the named files are read, the domain first and the problem only if the domain could be read; only to_json writes a file, the named one, and only a complete export. verify ignores the output file and metadata ignores both options: a problem that does not exist goes unnoticed.", "quantifier": "every list of arguments, every file system, every content of the files", "why_tests_cant": "Ranges over all argument lists and file systems; the tests never run the command line tool.", "anchors": ["src/bin/hddl_analyzer/cli_args.rs: CLIArgs, Commands, InputArgs", "src/bin/hddl_analyzer/main.rs: main"]}
{"id": "C80", "title": "Metadata depend on what is declared, not on where or how often", "statement": "Two domains that declare the same tasks and actions and decompose tasks in the same ways (each method has a counterpart with the same task, the same subtasks and identifiers and the same constraints, whatever its name, parameters and preconditions and however often it is repeated) have metadata both or neither; both are recursive or neither; the class of recursion is the same, and so are the tasks warned about, if the same tasks are found nullable, which is always so in domains where the computation of nullables cannot be misled. In particular the order of declarations plays no role, and two runs agree in this sense whatever the iteration order of hash maps.", "quantifier": "all pairs of domains with distinct names related in this way, all iteration orders of hash maps (a different one for each run)", "why_tests_cant": "Quantifies over all pairs of documents and all hash orders.", "anchors": ["src/semantic_analyzer/tdg.rs", "src/semantic_analyzer/mod.rs", "src/lib.rs"]}
{"id": "C81", "title": "Real numbers keep their value", "statement": "A real number in a document is read as the double nearest to it (ties to the even one). What is exported for it is a JSON number that stands for the same double, so reading the export back loses nothing; two literals are exported alike exactly when they are the same double or both infinite. A number of at most fifteen significant digits, zero or at least 2^-1022, is exported with exactly the value that was written; the exported number never has more than seventeen digits, no decimal with fewer places stands for the same double, and none with as many places is closer; it has an exponent exactly from 10^16 on and below 10^-5. null is exported exactly from 2^1024 - 2^970 on. Numbers of more digits do not always keep their value (refuted by 9007199254740993.0, exported as 9007199254740992.0).", "quantifier": "all real literals that the tokenizer delivers, of any length", "why_tests_cant": "There are infinitely many literals; tests sample some and cannot show that no literal is rounded or printed wrongly.", "anchors": ["src/lexical_analyzer/tokenizer.rs", "src/lexical_analyzer/token_types.rs"]}
{"id": "C82", "title": "How large the plans of a non-recursive domain can be", "statement": "If the metadata report no recursion, the reported numbers bound all work: when no method has more than b subtasks and t is the reported number of methods (or of abstract tasks, if only those have methods), then l tasks can be turned into at most l * max(1,b)^t tasks, and no execution that starts with l tasks takes more than l * (1 + b + ... + b^t) decompositions and actions. Both bounds are reached. Conversely a bound on the number of decompositions of every task exists only in domains reported as non-recursive.", "quantifier": "all documents with pairwise distinct task and action names for which the metadata are computed, all problems, all executions, all hash orders", "why_tests_cant": "Executions are unbounded in number and length; a test can only follow some of them and never shows that no longer one exists.", "anchors": ["src/semantic_analyzer/tdg.rs: get_recursion_type", "src/output/metadata.rs"]}
{"id": "C83", "title": "How long an exported text can be", "statement": "Exporting documents of L bytes gives at most 280 * (L + 12)^2 bytes of JSON. No bound proportional to L holds, not even for accepted domains: because of the indentation, a formula nested k deep needs at least k^2 bytes although its document has at most 63 k + 840. No real number is written with more than 24 bytes.", "quantifier": "all domains and problems that parse, with any order of the two in the export, all numbers of nested formulas", "why_tests_cant": "The length depends on the document in unboundedly many ways (nesting, repeated types, long names, line numbers); tests only measure some documents.", "anchors": ["src/lib.rs: to_json", "src/syntactic_analyzer/parser.rs", "src/lexical_analyzer/tokenizer.rs"]}
{"id": "C84", "title": "What a rejection message quotes, and that it is one line", "statement": "What a syntax error says it expected is one of 57 fixed texts, or one of 17 texts around a single name, and that name stands in the document on the reported line or above. The message of every rejected document is a single line: it contains no line break, except that a syntax error ends with one.", "quantifier": "all documents, all domain and problem pairs", "why_tests_cant": "The quoted names and lexemes come from the document, which is arbitrary bytes, and pass through all parsing functions; tests check a few messages.", "anchors": ["src/output/errors/syntactic.rs", "src/output/errors/lexical.rs", "src/syntactic_analyzer/parser.rs"]}
{"id": "C85", "title": "The text the parser makes of an action's effects", "statement": "The parser turns the effects of every action into a text (Display for Formula). For formulas of any two documents that can be read, the texts are equal exactly if the formulas are, apart from lines, types of variables, the spelling of weights, and the connective of fewer than two formulas. This needs the predicates and quantified variables to have names: written as a lone '?' they have none, and different effects can get the same text. The calls that make the text nest exactly as deep as the formula is high, and at most twice as deep as the calls that read the document.", "quantifier": "all formulas, all pairs of documents, all stack limits", "why_tests_cant": "Formulas are arbitrarily deep and names arbitrary words, and the text has no brackets around quantified, weighted and implied parts; tests compare a few texts at most.", "anchors": ["src/syntactic_analyzer/syntax_tree/nodes/formula.rs", "src/syntactic_analyzer/syntax_tree/nodes/predicate.rs", "src/syntactic_analyzer/domain_parser/action_parser.rs"]}
{"id": "C86", "title": "A problem is checked like a part of its domain", "statement": "For a problem of an accepted domain, write its objects as constants, its facts and its goal as effect and precondition of a new action, and its initial task network as the method of a new task. The problem is accepted exactly if its objects have different names and declared types and the domain so extended is accepted. An execution of that domain which starts with the new action and the new task can reach every initial state of an accepted problem, and from there on has exactly the executions of the problem. This needs a goal without quantifiers and implications, which problems do not check, and objects that share no name with constants or parameters, which they would hide; both conditions are shown to be needed.", "quantifier": "all domains, all problems, all executions, all hash orders, all stack limits", "why_tests_cant": "The problem checks are separate code from the domain checks; that they agree on every problem and domain cannot be settled by the few pairs a test contains.", "anchors": ["src/semantic_analyzer/analyzers/problem_analyzer.rs", "src/semantic_analyzer/analyzers/domain_analyzer.rs"]}
{"id": "C87", "title": "Instances of methods add nothing", "statement": "Take methods of an accepted domain and choose constants for some of their parameters, identify parameters, or give them narrower types. Added under new names, such instances leave the domain accepted (only their names can be wrong), and a problem is accepted with both domains or with neither. No problem gains or loses an execution, with or without regard to the ordering constraints (if no object has the name of a constant). Metadata are delivered for both domains or for neither; both are recursive or neither is, and the class of recursion is the same if the same tasks are listed as nullable. A choice of a type that does not fit is rejected.", "quantifier": "all accepted domains, all sets of instances, all problems and executions, all hash orders, all stack limits", "why_tests_cant": "Relates verdicts, executions and metadata of unboundedly many pairs of documents.", "anchors": ["src/semantic_analyzer/analyzers/domain_analyzer.rs", "src/semantic_analyzer/type_checker/generic_type_checker.rs", "src/semantic_analyzer/tdg.rs"]}
{"id": "C88", "title": "Subtasks can be unfolded", "statement": "Take a method of an accepted domain and a method for one of its subtasks (or instances of them with the same parameters), and replace the subtask by the subtasks of its method. Added under new names, such methods leave the domain accepted (only their names can be wrong), and a problem is accepted with both domains or with neither. Problems reach the same states (if no object has the name of a constant), the same tasks can be reached, refined and made to vanish, and recursion is reported for both domains or for neither; if the same tasks are listed as nullable, the same tasks are warned about. The arguments must fit the parameters of the inner method, not only those of its task: a method may be for a part of the objects its task is for, and unfolding without regard to that is rejected.", "quantifier": "all accepted domains, all sets of unfolded methods, all problems and executions, all hash orders, all stack limits", "why_tests_cant": "Relates verdicts, executions and metadata of unboundedly many pairs of documents.", "anchors": ["src/semantic_analyzer/analyzers/domain_analyzer.rs", "src/semantic_analyzer/type_checker/generic_type_checker.rs", "src/semantic_analyzer/tdg.rs"]}
