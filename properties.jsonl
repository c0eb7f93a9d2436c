{"id": "C01", "title": "Parsing is total", "statement": "parse.String, parse.Reader and parse.File return for every input: parsing terminates, never lets a panic escape, and returns either a file with a nil error or a nil file with a non-nil error, never both or neither.", "quantifier": "every byte string (valid UTF-8 or not), every filename, every behaviour of go/parser that returns or panics, every read/open/close failure", "why_tests_cant": "tests run finitely many inputs; termination and absence of panics are claims about all of them", "anchors": ["parse/parse.go:File", "parse/parse.go:Reader", "parse/parse.go:String", "parse/internal/parser/zparser.go:parse", "parse/internal/parser/zparser.go:parseExpr"]}
{"id": "C02", "title": "Accepted language is exactly the documented grammar", "statement": "parse.String(s) succeeds with file f if and only if s is a written form of f: rules separated by optional white space and // comments, each rule a match value, an optional && condition, =>, an optional @block and a result value, with the operands of an s-expression in any order.", "quantifier": "every byte string and every file", "why_tests_cant": "an unbounded set of accepted and rejected texts", "anchors": ["parse/rules.peg", "parse/internal/parser/zparser.go:g", "parse/parse.go:String"]}
{"id": "C03", "title": "Printing then parsing gives back the tree", "statement": "for a file whose names, opcodes, types and blocks are lexically valid and whose embedded Go expressions read back, printer.Bytes followed by parse.String returns an equal file. Conversely, any file whatever that comes back unchanged is of this kind.", "quantifier": "every well-formed file", "why_tests_cant": "unbounded trees; TestRoundtrip only covers trees that came from the shipped rule files", "anchors": ["printer/printer.go:Bytes", "printer/printer.go:Fprint", "parse/parse.go:String"]}
{"id": "C04", "title": "Printing what was parsed is stable", "statement": "if parse.String(s) = f and the Go expressions in f read back after printing, then printing f and parsing again gives f, and printing that again gives the same bytes. The file comes back if and only if no two adjacent tokens of a printed expression run together and no literal of a condition contains the arrow (which it never does if the source has no carriage returns).", "quantifier": "every accepted source text", "why_tests_cant": "every accepted text, not only the sample files", "anchors": ["printer/printer.go:Bytes", "parse/parse.go:String"]}
{"id": "C05", "title": "Go expressions survive print and parse when no two operators merge", "statement": "a Go expression tree that respects operator precedence prints to text that goexpr.Parse reads back as the same tree, provided no unspaced operator is directly followed by an operator whose spelling merges with it and no selector is applied to a bare integer; the proviso is exact; every tree that goexpr.Parse returns respects precedence; without the proviso the claim is false (a - -b, a & ^b, a / *p, - -x, 1 .x). The names and literals in these trees are exactly those of the Go specification: integers in four bases with underscores, decimal and hexadecimal floats, imaginaries, rune and string literals with their escape sequences, raw strings. goexpr.Parse returns a tree or an error for every text.", "quantifier": "every Go expression tree built from the supported node types", "why_tests_cant": "unbounded trees and operator combinations", "anchors": ["printer/printer.go:goexpr", "parse/internal/goexpr/parse.go:Parse"]}
{"id": "C06", "title": "Concatenating sources concatenates rules", "statement": "if two sources parse and they contain at least one rule between them, then the first, a newline, and the second parse to the rules of the first followed by the rules of the second. (Two empty sources are the exception: the empty text is accepted, a lone newline is not.)", "quantifier": "every pair of accepted sources", "why_tests_cant": "pairs of arbitrary texts", "anchors": ["parse/parse.go:String", "parse/rules.peg:File"]}
{"id": "C07", "title": "Surrounding white space and comments are ignored", "statement": "adding white space, newlines and complete // comment lines before or after an accepted source that has at least one rule does not change the result. (A source of comments alone is rejected, although the empty source is accepted.)", "quantifier": "every accepted source and every blank text", "why_tests_cant": "arbitrary padding and sources", "anchors": ["parse/rules.peg:Skip", "parse/rules.peg:Comment"]}
{"id": "C08", "title": "Parsed trees are well formed", "statement": "in a parsed file every match, result and argument is non-nil, opcodes and bindings match their lexical class, an opcode with several parts has an alternative group in it and never two adjacent plain parts, every alternative group has at least two members, and conditions and aux fields are supported Go expressions.", "quantifier": "every accepted source", "why_tests_cant": "all accepted sources", "anchors": ["parse/rules.peg:Op", "parse/rules.peg:OpAlt", "parse/internal/parser/zparser.go:onSExpr22", "parse/internal/parser/zparser.go:onSExpr29"]}
{"id": "C09", "title": "Parsed trees carry no positions", "statement": "embedded Go expressions in a parsed file have no source positions, so equal expressions at different places of a source are equal trees.", "quantifier": "every accepted source", "why_tests_cant": "all accepted sources", "anchors": ["parse/internal/goexpr/parse.go:clearpos"]}
{"id": "C10", "title": "Variadic calls keep their ellipsis", "statement": "a call written f(xs...) in a condition or aux field is represented differently from f(xs). (False of the code: clearpos erases the marker, so the two always give equal trees.)", "quantifier": "every call with a spread argument", "why_tests_cant": "a claim about all calls; the shipped rules contain none", "anchors": ["parse/internal/goexpr/parse.go:clearpos"]}
{"id": "C11", "title": "Invalid UTF-8 is always rejected", "statement": "a source that contains an invalid UTF-8 byte reached by the parser is never accepted: an accepted source is valid UTF-8 throughout.", "quantifier": "every byte string", "why_tests_cant": "all byte strings", "anchors": ["parse/internal/parser/zparser.go:read"]}
{"id": "C12", "title": "Error positions are right", "statement": "every line of a parse error names a byte offset inside the source (or its end), and the line and column reported with it are those of that offset, where a newline character counts as column 0 of the line it starts; the only exception is a failure at offset 0, which may be reported as 1:1 whatever is there.", "quantifier": "every rejected source", "why_tests_cant": "all rejected sources", "anchors": ["parse/internal/parser/zparser.go:read", "parse/internal/parser/zparser.go:restore", "parse/internal/parser/zparser.go:addErrAt"]}
{"id": "C13", "title": "The filename only labels errors", "statement": "whether a source is accepted and the file returned do not depend on the filename, and each reported message starts with filename, colon.", "quantifier": "every source and every two non-empty filenames", "why_tests_cant": "all sources and names", "anchors": ["parse/internal/parser/zparser.go:addErrAt", "parse/parse.go:Reader"]}
{"id": "C14", "title": "A bad Go expression is never dropped", "statement": "if an auxint, aux, call or condition text that occurs in the source's only reading is rejected by go/parser or contains an unsupported node, parsing fails; a parse that succeeded handed only accepted texts to go/parser.", "quantifier": "every source, every behaviour of go/parser", "why_tests_cant": "all sources", "anchors": ["parse/internal/parser/zparser.go:onRule25", "parse/internal/parser/zparser.go:onOperand8", "parse/internal/parser/zparser.go:onOperand14", "parse/internal/parser/zparser.go:onCall1"]}
{"id": "C15", "title": "The whole condition is represented", "statement": "the condition of a parsed rule is the Go expression of the complete text between && and =>, with newlines as blanks and outer white space removed. (So it is not the expression of the text as written when that has a // comment followed by more lines: the comment swallows the rest.)", "quantifier": "every rule with a condition", "why_tests_cant": "all condition texts; the golden files themselves record the loss", "anchors": ["parse/internal/parser/zparser.go:onRule25", "printer/testdata/generic.golden"]}
{"id": "C16", "title": "Operands may come in any order", "statement": "the type, auxint and aux operands of an s-expression may be written anywhere among the arguments; the last of each kind wins and the arguments keep their order.", "quantifier": "every s-expression and operand sequence", "why_tests_cant": "all interleavings", "anchors": ["parse/rules.peg:SExpr", "parse/internal/parser/zparser.go:onSExpr1"]}
{"id": "C17", "title": "Writer errors stop the printer", "statement": "Fprint calls the writer with successive pieces of one fixed text; after the first failed write it writes nothing more and returns that first error.", "quantifier": "every node, every writer", "why_tests_cant": "all writers and failure points", "anchors": ["printer/printer.go:Fprint", "printer/printer.go:printf", "printer/printer.go:seterror"]}
{"id": "C18", "title": "Bytes fails only on unprintable trees", "statement": "printer.Bytes returns an error exactly when the tree contains a nil node or an unsupported expression node (or the root is an OpcodeAlt), the error names the first such node, and it never panics.", "quantifier": "every node", "why_tests_cant": "all trees", "anchors": ["printer/printer.go:Bytes", "printer/printer.go:node"]}
{"id": "C19", "title": "Printing a file is printing its rules", "statement": "the text of a file is the concatenation of the texts of its rules, each followed by a newline, and a file can be printed exactly when all its rules can.", "quantifier": "every file", "why_tests_cant": "all files", "anchors": ["printer/printer.go:node"]}
{"id": "C20", "title": "Different rules print differently", "statement": "two well-formed rules with the same printed text are equal (given that their embedded Go expressions read back).", "quantifier": "every pair of well-formed rules", "why_tests_cant": "pairs of arbitrary trees", "anchors": ["printer/printer.go:rule"]}
{"id": "C21", "title": "Expansion is lockstep instantiation", "statement": "when ExpandAlternates succeeds, each rule is replaced, in place and in order, by its instances 0..n-1, where instance i takes the i-th member of every alternative group and n is the common size of the groups (or 1 when there is none).", "quantifier": "every file", "why_tests_cant": "all files, nesting depths and group sizes", "anchors": ["pass/alt.go:ExpandAlternates", "pass/alt.go:expandsexpr", "pass/alt.go:expandopcodeparts"]}
{"id": "C22", "title": "Expansion removes all alternatives", "statement": "after a successful ExpandAlternates every opcode in every match and result, at any depth, is a plain opcode.", "quantifier": "every file", "why_tests_cant": "all trees", "anchors": ["pass/alt.go:ExpandAlternates"]}
{"id": "C23", "title": "Expansion is idempotent", "statement": "expanding an already expanded file changes nothing and succeeds.", "quantifier": "every file", "why_tests_cant": "all files", "anchors": ["pass/alt.go:ExpandAlternates"]}
{"id": "C24", "title": "Expansion fails exactly on incompatible alternatives", "statement": "on trees the parser can produce, ExpandAlternates returns an error exactly when some rule has two alternative groups of different sizes; the error belongs to the first such rule and names the sizes of two groups that follow each other in reading order, in that order.", "quantifier": "every file of parser-shaped rules", "why_tests_cant": "all combinations of groups across nested arguments and both sides", "anchors": ["pass/alt.go:resolvecounts", "pass/alt.go:expandrule"]}
{"id": "C25", "title": "A failed expansion changes nothing", "statement": "when ExpandAlternates returns an error the file's rules are exactly as before.", "quantifier": "every file", "why_tests_cant": "all files and failure points", "anchors": ["pass/alt.go:ExpandAlternates"]}
{"id": "C26", "title": "Expansion never panics on parsed files", "statement": "ExpandAlternates does not panic on a parsed file. (It does panic on a hand-built opcode with a one-member group next to a larger one.)", "quantifier": "every parsed file; every hand-built file for the converse", "why_tests_cant": "all files", "anchors": ["pass/alt.go:expandopcodeparts", "pass/alt.go:idx"]}
{"id": "C27", "title": "Expansion keeps everything but opcodes", "statement": "every rule produced by ExpandAlternates has the condition and block of the rule it came from, and its trees differ from the original ones only in opcodes: same shape, bindings, types, aux fields, variables and flags.", "quantifier": "every file", "why_tests_cant": "all files", "anchors": ["pass/alt.go:expandrule", "pass/alt.go:expandsexpr"]}
{"id": "C28", "title": "Expansion works rule by rule", "statement": "expanding the concatenation of two files is the concatenation of their expansions, failing if either fails; the result for a rule does not depend on its neighbours.", "quantifier": "every pair of files", "why_tests_cant": "pairs of arbitrary files", "anchors": ["pass/alt.go:expandrules"]}
{"id": "C29", "title": "Feature tests survive expansion", "statement": "HasBinding, HasType, HasAux, HasAuxInt, HasEllipsis and HasTrailing give the same answer on a rule and on each of its expansions, so filtering before or after expansion keeps the same rules.", "quantifier": "every rule that expands", "why_tests_cant": "all rules", "anchors": ["rules/rules.go", "pass/alt.go:expandrule"]}
{"id": "C30", "title": "Expansion does not modify shared nodes", "statement": "ExpandAlternates only replaces the file's rule slice: every rule, value and opcode reachable before the call is unchanged, including those shared with other files.", "quantifier": "every heap and file", "why_tests_cant": "all sharing patterns", "anchors": ["pass/alt.go:ExpandAlternates", "pass/alt.go:expandsexpr"]}
{"id": "C31", "title": "Walk visits in depth-first order", "statement": "Walk calls the visitor on the root, then on match and result, opcode then arguments, left to right, exactly once per occurrence, with the visitor returned at the parent, and does not descend where it returned nil.", "quantifier": "every tree and every visitor", "why_tests_cant": "all trees and visitors", "anchors": ["ast/walk.go:Walk"]}
{"id": "C32", "title": "Inspect sees exactly the non-pruned nodes", "statement": "the nodes passed to the Inspect callback are the preorder list of the nodes all of whose ancestors got true; it panics only when it descends into a nil. The callback may keep state: its answers, given in turn, decide what it is shown next.", "quantifier": "every tree and every callback, with or without state of its own", "why_tests_cant": "all trees and callbacks", "anchors": ["ast/walk.go:Inspect"]}
{"id": "C33", "title": "Contains is existence", "statement": "Contains(n, pred) is true exactly when pred holds of some visited node, and pred is called on the preorder prefix up to and including the first hit and on nothing else.", "quantifier": "every tree and every predicate, with or without state of its own", "why_tests_cant": "all trees and predicates", "anchors": ["ast/walk.go:Contains"]}
{"id": "C34", "title": "Feature tests are existence over s-expressions", "statement": "each rules.Has* function is true exactly when some s-expression occurring anywhere in match or result has that feature.", "quantifier": "every rule without nil nodes", "why_tests_cant": "all rules", "anchors": ["rules/rules.go"]}
{"id": "C35", "title": "Traversal covers conditions and aux fields", "statement": "Walk reaches every node of the tree as documented. (False of the code: Condition, AuxInt and Aux are never visited.)", "quantifier": "every tree with a condition or aux field", "why_tests_cant": "all trees", "anchors": ["ast/walk.go:Walk"]}
{"id": "C36", "title": "Generated scripts are well formed", "statement": "when smt2.Generate succeeds on a rule whose variables are not SMT-LIB reserved words, its output is a syntactically correct, well-sorted SMT-LIB script: set-info, set-logic, declarations, one assertion, check-sat, exit; each variable is declared exactly once, before use, and nothing else is declared.", "quantifier": "every rule", "why_tests_cant": "all rules", "anchors": ["smt2/generate.go:Generate", "smt2/ops.go:buildoperations"]}
{"id": "C37", "title": "Scripts decide rule validity", "statement": "the script generated for a rule is unsatisfiable if and only if match and result compute the same value under Go's fixed-width integer semantics for every assignment of its variables. Moreover every model of the script, read as two's complement, is a counterexample of the rule, and every counterexample is a model.", "quantifier": "every rule accepted by Generate, every assignment and interpretation", "why_tests_cant": "all rules and all 2^64-sized domains", "anchors": ["smt2/generate.go:generate", "smt2/ops.go:buildoperations"]}
{"id": "C38", "title": "Generate succeeds exactly on typable rules", "statement": "smt2.Generate succeeds exactly when the rule has no condition or block, no unsupported feature, only known opcodes with the right number of arguments, consistently typed variables, and a match that is an operation.", "quantifier": "every rule", "why_tests_cant": "all rules", "anchors": ["smt2/generate.go:generate", "smt2/ops.go:Params"]}
{"id": "C39", "title": "Generate reports unsupported features", "statement": "a rule containing a binding, type, aux, auxint, ellipsis, trailing marker, Go expression, unknown opcode, condition or block is never translated: Generate returns an error and no bytes.", "quantifier": "every rule", "why_tests_cant": "all rules", "anchors": ["smt2/generate.go:sexpr", "smt2/generate.go:eval"]}
{"id": "C40", "title": "Generate never panics", "statement": "smt2.Generate returns a script or an error for every rule, including rules with nil nodes.", "quantifier": "every rule", "why_tests_cant": "all rules", "anchors": ["smt2/generate.go:Generate"]}
{"id": "C41", "title": "The rule comment cannot leak into the script", "statement": "whatever the printed rule contains, newlines included, the comment in the generated script stays a comment: removing comment lines gives the same script for any comment text.", "quantifier": "every rule", "why_tests_cant": "all printed texts", "anchors": ["smt2/generate.go:generate"]}
{"id": "C42", "title": "Placeholders are independent", "statement": "each _ in a match stands for its own value. (False of the code: all _ share one SMT constant, so invalid rules are reported valid.)", "quantifier": "every rule with two placeholders", "why_tests_cant": "all rules", "anchors": ["smt2/generate.go:variable"]}
{"id": "C43", "title": "Only simple rules are loaded", "statement": "load keeps exactly the rules without condition, block, binding, type, aux, auxint, ellipsis or trailing marker, in input order, and fully expands them.", "quantifier": "every list of files", "why_tests_cant": "all inputs", "anchors": ["cmd/ssarules/main.go:load"]}
{"id": "C44", "title": "Output files are exactly the translatable rules", "statement": "when run returns nil, it has written, for each loaded rule i that Generate accepts, exactly the file named with i in at least four digits containing Generate's bytes, and no other; distinct rules get distinct names.", "quantifier": "every input and output directory", "why_tests_cant": "all inputs; collisions appear only past 9999 rules", "anchors": ["cmd/ssarules/main.go:run"]}
{"id": "C45", "title": "Errors stop the command cleanly", "statement": "if loading fails nothing is written; if a write fails the command stops there with that error and every earlier output is complete.", "quantifier": "every input and failure point", "why_tests_cant": "all failure points", "anchors": ["cmd/ssarules/main.go:run"]}
{"id": "C46", "title": "Loaded rules never hit unsupported features", "statement": "for a loaded rule, Generate's only possible complaints are unknown opcodes, Go call expressions, argument counts and types: never features, conditions, blocks or unexpanded opcodes.", "quantifier": "every input", "why_tests_cant": "all inputs", "anchors": ["cmd/ssarules/main.go:load", "smt2/generate.go:sexpr"]}
{"id": "C47", "title": "End to end: a written script decides its rule", "statement": "every script written by run for source files is Generate's output for one instance of one simple rule of one of the files, and is unsatisfiable exactly when that instance is valid; the values a solver finds for it are a counterexample of that instance; and every instance of a simple rule that Generate accepts has its script written.", "quantifier": "every list of source files", "why_tests_cant": "all inputs", "anchors": ["cmd/ssarules/main.go:run"]}
{"id": "C48", "title": "The log tells what was done", "statement": "a run reports, in order: for each file its number of rules, the total, the number of simple rules, the number after expansion; then for every rule its printed text followed, after the script was written, by the script's file name, or by Generate's complaint. A failing run does a beginning of this: up to the file it could not read, up to the expansion, or up to the failed write. Standard error has each message on its own line with the prefix 'ssarules: ', and on failure the error is the last message and the exit status is 1.", "quantifier": "every input, output directory and failure pattern", "why_tests_cant": "all inputs; no test looks at the log", "anchors": ["cmd/ssarules/main.go:run", "cmd/ssarules/main.go:load", "cmd/ssarules/main.go:main"]}
{"id": "C49", "title": "The parser implements the grammar file", "statement": "the entry points of package parse accept exactly the UTF-8 sources that the grammar in parse/rules.peg derives from File, and return the file its actions build; every other source is an error. The inlining and merging done when the parser was generated with -optimize-grammar changed nothing, for File and for every rule that remains in the generated table.", "quantifier": "every source text, every behaviour of the Go expression parser", "why_tests_cant": "all texts; no test compares the generated table with the grammar file", "anchors": ["parse/rules.peg", "parse/parse.go:Reader", "parse/internal/parser/zparser.go:g"]}
{"id": "C50", "title": "Expanded files can be written and read back", "statement": "when ExpandAlternates succeeds on a file whose rules are lexically valid and whose Go conditions and results read back, printing the expanded file succeeds and parsing the text gives exactly the expanded file; writing and reading the file before the pass does not change what the pass returns. For parsed files the only provisos are no carriage return in the source and Go expressions that print unambiguously.", "quantifier": "every file of lexically valid rules, every parsed source, every behaviour of the Go expression parser", "why_tests_cant": "all rules and all alternations; the test prints expanded rules one by one and never reads them back", "anchors": ["pass/alt.go:ExpandAlternates", "printer/printer.go:Bytes", "parse/parse.go:Reader"]}
{"id": "C51", "title": "The mistake is not after the reported place", "statement": "when parsing fails with 'no match found' at byte offset k, every text with the same first k+8 bytes is rejected with exactly the same error message: nothing that follows the reported place can repair the source or change what is reported.", "quantifier": "every source, every continuation, every behaviour of the Go expression parser", "why_tests_cant": "all texts and all their continuations; no test looks at error positions", "anchors": ["parse/internal/parser/zparser.go:failAt", "parse/internal/parser/zparser.go:parse", "parse/parse.go:Reader"]}
{"id": "C52", "title": "Parsing takes at most quadratic work; the built-in work limit never strikes", "statement": "parsing n bytes evaluates at most 1000(n+1)^2 grammar expressions, with no exponential backtracking, whatever the text, valid or not; so for sources of up to 10^8 bytes the runtime's limit on evaluations (2^64-1) is never reached and Parse returns what it would return without a limit.", "quantifier": "every text, valid or not, every behaviour of the Go expression parser", "why_tests_cant": "a bound for all texts: backtracking blow-up shows only on unlucky inputs, and no test measures it", "anchors": ["parse/internal/parser/zparser.go:parseExpr", "parse/internal/parser/zparser.go:errMaxExprCnt", "parse/rules.peg"]}
{"id": "C53", "title": "A killed run leaves no wrong output", "statement": "whenever the command is killed, even in the middle of a write, the files it has written are the complete scripts of the first rules and at most a beginning of the next one, and every script reported as written is complete; killed or stopped by failing writes any number of times and then run to the end, it leaves every file with the contents that one undisturbed run leaves.", "quantifier": "every input, output directory, failure pattern and moment of the kill, any number of kills", "why_tests_cant": "a kill can come at any of unboundedly many moments", "anchors": ["cmd/ssarules/main.go:run", "cmd/ssarules/main.go:load"]}
{"id": "C54", "title": "The command line has one meaning", "statement": "the arguments are settings of -outdir (one or two dashes, value in the next word or after =; the last one counts), then perhaps --, then the files; such a command line runs the command on those files and that directory. -h or -help in place of a setting prints the usage with status 0; anything else prints what is wrong and the usage with status 2; in both cases nothing is written. The status is 0 exactly for help and for complete runs, 2 exactly for misuse.", "quantifier": "every list of arguments, every input and failure pattern", "why_tests_cant": "all argument lists", "anchors": ["cmd/ssarules/main.go:main", "cmd/ssarules/main.go:run", "cmd/ssarules/main.go:outdir"]}
{"id": "C55", "title": "How a reader delivers its text does not matter", "statement": "parse.Reader returns what parsing the whole delivered text returns, or the reader's error when it ends with one other than EOF, however the text is cut into pieces, with empty reads in between, with the end given together with the last piece or after it, and however the buffer grows; parse.String parses all of its argument.", "quantifier": "every reader that eventually ends, every text, every piecewise delivery", "why_tests_cant": "all ways of delivering all texts", "anchors": ["parse/parse.go:Reader", "parse/parse.go:String", "parse/internal/parser/zparser.go:ParseReader"]}
{"id": "C56", "title": "Names do not matter", "statement": "renaming the variables of a rule so that different variables stay different changes neither whether Generate succeeds nor what the script says: the commands of the new script are those of the old one with the names changed. A rule whose script is unsatisfiable keeps an unsatisfiable script when its variables are identified with each other or replaced by whole trees, if Generate still accepts it.", "quantifier": "every rule, every renaming, every replacement of variables by trees", "why_tests_cant": "all rules and all substitutions", "anchors": ["smt2/generate.go:Generate", "smt2/generate.go:variable", "smt2/generate.go:eval"]}
{"id": "C57", "title": "Rewriting with rules whose scripts are unsatisfiable is sound", "statement": "if the scripts of a set of rules are unsatisfiable and no result uses a variable its match does not have, then any number of rewriting steps with them, at any places of any tree, keeps its type and its value for all contents of the variables; a rule whose script is satisfiable has a step that changes a value. So when all scripts a run of the command wrote are unsatisfiable, rewriting with the loaded rules that have scripts is sound.", "quantifier": "every set of rules, every tree, every sequence of rewriting steps, every contents of the variables, every run", "why_tests_cant": "all trees, all values of 64-bit variables, all sequences of steps", "anchors": ["smt2/generate.go:Generate", "smt2/ops.go:operations", "cmd/ssarules/main.go:run"]}
{"id": "C58", "title": "Dumping a tree", "statement": "ast.Dump succeeds on every node, and its text is a numbered page: one line per scalar and two per struct or slice, indented by depth, with the names of the fields in the order of their declaration, without nil fields, strings quoted. ast.Fprint gives any writer that same text in pieces and stops at its first error, which it returns.", "quantifier": "every tree of the kinds parsing can produce (and, for the writer, every node), every writer, every table of printable characters", "why_tests_cant": "all trees and all writers", "anchors": ["ast/ast.go:Dump", "ast/ast.go:Fprint", "ast/ast.go:Print"]}
{"id": "C59", "title": "Dumps tell trees apart", "statement": "two trees with the same dump are equal, if names are single lines that do not end in a brace and no type annotation has a newline in it; in particular two parsed files without such a type. With a newline in a type, different parsed files can have the same dump.", "quantifier": "every pair of such trees, every pair of sources", "why_tests_cant": "all pairs of trees", "anchors": ["ast/ast.go:Dump", "parse/parse_test.go"]}
{"id": "C60", "title": "Goroutines may parse, expand, test, print and generate from files with common nodes at the same time", "statement": "Let any number of goroutines run at the same time, each calling parse.Reader or parse.String on some text, pass.ExpandAlternates on a File of its own, a rules.Has* test or smt2.Generate on some rule, printer.Bytes on a rule, a value or a File that nobody expands, or parsing, expanding and printing one text after the other; the files and rules may share rules, nodes, arguments, backing arrays and spare capacity. Whatever the scheduler does, no goroutine touches memory another one writes (no data race); all memory but the expanded Files and newly made cells stays as it was; each call returns, and each File ends up with, what it would have alone; files parsed at the same time have no memory in common; and every schedule comes to an end, with memory in a state from which all this holds again for the next goroutines. Two goroutines on the same File do race.", "quantifier": "every set of calls, every heap without dangling pointers, every sharing, every schedule, at every moment", "why_tests_cant": "the race detector sees one schedule and one sharing at a time; the claim is about all of them", "anchors": ["pass/alt.go: ExpandAlternates, expandrules, expandrule, expandsexpr", "ast/walk.go: Walk, Contains", "rules/rules.go", "printer/printer.go: Bytes, Fprint", "smt2/generate.go: Generate", "parse/parse.go: Reader, String; parse/internal/parser/zparser.go: Parse"]}
{"id": "C61", "title": "A failed expansion says what is wrong", "statement": "whatever tree is handed to ExpandAlternates, a returned error names a fault that the first inexpandable rule has: a nil operand, opcode or opcode part, an empty opcode, an opcode or group that does not stand for several alternatives, or two successive groups of different sizes (with the sizes); every rule before it is expandable; the only possible panic is the index panic [1] with length 1.", "quantifier": "every file tree, including trees no parser builds", "why_tests_cant": "faults can sit anywhere in arbitrarily nested trees and combine", "anchors": ["pass/alt.go:ExpandAlternates", "pass/alt.go:expandopcodeparts", "pass/alt.go:resolvecounts", "internal/errutil/errutil.go"]}
{"id": "C62", "title": "A failed script generation pinpoints the first fault", "statement": "Generate returns error e for a rule exactly when e describes the first fault of the rule in reading order: the path of opcodes and argument numbers down to the value at fault, then what is wrong with it (unsupported field, unexpanded or unknown opcode, wrong result type, wrong number of arguments, untypable variable, Go expression, nil), or an unsupported condition or block; the message is unique.", "quantifier": "every rule and every message", "why_tests_cant": "faults can sit at any depth and compete with each other; the message must be right for all of them", "anchors": ["smt2/generate.go:sexpr", "smt2/generate.go:variable", "smt2/generate.go:generate", "smt2/ops.go:Params"]}
{"id": "C63", "title": "Dumps of trees that share nodes", "statement": "Dump and Fprint of whatever shares nodes (as the output of ExpandAlternates does), even of cyclic structures, terminate; each object is shown in full where it is met first and only there, and everywhere else as *(obj @ n) where n is the line on which its braces open; this determines the text; every writer is given this text until its first error; nil pointers are shown as nil; when nothing is met twice the dump is that of the tree. So it is for all memory that code accepted by the Go compiler can come to, if its Go expressions are of the kinds that parsing accepts.", "quantifier": "every heap, every node in it, every writer", "why_tests_cant": "nodes can be shared in unboundedly many ways and lie on cycles", "anchors": ["ast/ast.go:Fprint", "ast/ast.go:Dump", "pass/alt.go:ExpandAlternates"]}
{"id": "C64", "title": "Scripts are in the directory asked for", "statement": "However a run of the command ends, every file it has written is directly in the directory that the value of -outdir leads to from the current directory (the current directory if it is empty), even if that value has ., .., doubled or trailing slashes, provided that no directory involved is a symbolic link; the path logged is without detours. With links to directories this fails (link/.. is not resolved).", "quantifier": "every output directory text, directory tree, current directory, set of inputs and way of ending", "why_tests_cant": "unboundedly many spellings of a directory and directory trees", "anchors": ["cmd/ssarules/main.go:run"]}
{"id": "C65", "title": "What a syntax error says was expected", "statement": "After 'no match found, expected:' comes the list of exactly those terminals of the grammar that were tried at the reported byte and did not match there, or matched under a negation; nothing went wrong farther on. The list is never empty, has no duplicates, is in byte order with EOF last, and is separated by commas with 'or' before the last item. It is honest: read as literals, character classes, '.', negations and EOF, no item holds of the text at the reported byte, and an item has only one reading. It is not complete: a text with another continuation may parse although no listed item holds of it.", "quantifier": "every source text, file name and Go expression parser; every item of the list", "why_tests_cant": "all texts, at every place where parsing can get stuck", "anchors": ["parse/internal/parser/zparser.go:parser.failAt", "parse/internal/parser/zparser.go:parser.parse", "parse/internal/parser/zparser.go:listJoin"]}
{"id": "C66", "title": "Printing and Generate only read, and do not see sharing", "statement": "printer.Fprint, printer.Bytes, smt2.Generate and the rules.Has* tests never write to the tree they are given, whatever it holds and however many goroutines run them. What is printed and generated depends only on the tree that the pointers stand for, not on which nodes are shared; in particular, after pass.ExpandAlternates the File prints as, and gives the scripts of, the expanded tree. A nil *ast.SExpr or *ast.Expr that stands for a value anywhere in a rule makes printing and Generate panic with a nil dereference; a rule without one does not.", "quantifier": "every heap (cyclic and ill-typed ones for the first claim), every sharing, every writer, every depth at which the nil pointer sits", "why_tests_cant": "tests use fresh trees without sharing, and a few writers; the claim is about all heaps", "anchors": ["printer/printer.go: Bytes, Fprint, rule, value, sexpr, op", "smt2/generate.go: Generate, eval, sexpr", "pass/alt.go: ExpandAlternates"]}
{"id": "C67", "title": "A parsed file is made of new memory that nothing else uses, no part of it twice", "statement": "parse.File, parse.String and parse.Reader return a File all of whose nodes, arrays and opcode slices were made by that call, and in which no node or array is reachable in two ways; they write nothing that existed before. So files parsed separately share nothing (changing or expanding one cannot affect another), the dump of a parsed file has no references to earlier objects in it, and parsing, expanding and printing with pointers gives what the tree functions give.", "quantifier": "every source text, every memory the call starts in, every behaviour of go/parser.ParseExpr, every growth policy of append", "why_tests_cant": "tests compare trees by value, which cannot see sharing; whether nodes are shared depends on backtracking and labels in the generated parser", "anchors": ["parse/internal/parser/zparser.go: onFile1, onRule1, onSExpr1, onSExpr22, parseExpr, parseSeqExpr, parseLabeledExpr", "parse/parse.go: File, Reader, String, cast"]}
{"id": "C68", "title": "Nothing grows out of proportion", "statement": "Printing a parsed file takes at most three times the bytes of its source. Expanding a file whose printed form has n bytes gives at most n rules, at most n*n bytes printed, and no rule longer than the longest there was (no linear bound holds). The script of a rule has at most 36 times the bytes of the rule plus 100, and a complaint at most 12 times plus 60. So a run of the command over n bytes of rules, successful or not, writes at most 3n scripts with at most 324*n*(n+1) bytes together (when a write that fails leaves a beginning of its contents), and logs at most two messages for each of 3n rules besides one for each file and four more, with a total that grows with n*(n + the length of the output directory) and the length of the file names: nested alternatives, deep expressions and repeated variables cannot make it exponential.", "quantifier": "every source text, every file that expands, every rule that prints, every disk contents, file list and output directory", "why_tests_cant": "a growth bound is about all sizes of inputs; tests look at a few small ones, and the worst cases (many groups in one rule, deep nesting, long shared names) are combinations nobody writes down", "anchors": ["pass/alt.go: ExpandAlternates", "smt2/generate.go: Generate", "smt2/ops.go: buildoperations, Evaluate", "printer/printer.go: Fprint", "cmd/ssarules/main.go: run"]}
{"id": "C69", "title": "Expansion makes the changed nodes anew, once per alternative, and shares the rest", "statement": "After ExpandAlternates a rule without alternatives is the very same rule. Of a rule with alternatives there is one new Rule per alternative; in it exactly the S-expressions that contain alternatives are new (with a new argument array each), their AuxInt and Aux and the rule's condition are the source's own pointers, and every value without alternatives is the source's own. No two instances use the same new object. So writing into anything the pass has made changes at most one rule of the file; if the source shared nothing (as after parsing), writing into anything at all changes only instances of one source rule. Instances of one rule do share the unchanged parts: editing those in one instance edits them in all.", "quantifier": "every file that expands, with any sharing inside it and any other contents of memory, every growth policy of append, every cell and every value written into it", "why_tests_cant": "tests compare trees by value and see neither identity nor aliasing; whether an instance is private depends on append reusing capacity at every level of every rule", "anchors": ["pass/alt.go: ExpandAlternates, expandrules, expandrule, expandvalue, expandsexpr"]}
{"id": "C70", "title": "Hand-built rules: in type-correct memory only nil pointers, cycles and lopsided opcodes can make a call fail badly", "statement": "Let memory be anything Go's types allow: pointers nil, shared or cyclic, slices of any offset, length and capacity. (1) ExpandAlternates leaves memory type-correct, and panics only for a nil pointer, exhaustion of the stack, or an opcode in memory whose alternatives do not fit together; never for an index out of range. (2) If it succeeds, every rule of the file was non-nil, of a depth within the stack, and without nil S-expressions or nil values; without nil Go expressions too it was a tree. (3) Printing and Generate either see a tree, and give its text or script, or panic for a nil pointer or the end of the stack. (4) A Has* test that answers is right about every S-expression within the rule; one that answers no has met no nil. (5) However large the stack, a rule in which an S-expression is its own argument, at any distance, is never printed, never turned into a script, never found to lack a feature, and its file is never expanded or printed. (6) Whatever a program has parsed, expanded, built node by node and edited by type-correct assignments, in any order and with any outcomes, its memory is such a memory.", "quantifier": "every type-correct memory and every file, rule or value in it, every stack depth, every growth policy of append, every writer, every history of calls, allocations and assignments", "why_tests_cant": "hand-built structures have unboundedly many shapes, sharing patterns and nil positions; and absence of out-of-range indices is a statement about all of them", "anchors": ["pass/alt.go: ExpandAlternates, expandrules, expandrule, expandvalue, expandsexpr, expandop, idx", "printer/printer.go: Fprint, Bytes", "smt2/generate.go: Generate", "rules/rules.go: HasBinding, HasType, HasAux, HasAuxInt, HasEllipsis, HasTrailing", "ast/walk.go: Walk, Contains", "parse/internal/parser/zparser.go: the actions"]}
{"id": "C71", "title": "A printed file has one line per rule", "statement": "Print a file that Parse returned. (1) The number of line breaks in the text is the number of rules plus the line breaks that are inside types, blocks and literals of Go expressions; the layout, line breaks and comments of the source add none. (2) So if these have none, the text is one line per rule, in order, each being what printing that rule alone gives. (3) The literals of a condition have none, even where the source had them (in a raw string).", "quantifier": "every file name and source text that parses, every rule in it", "why_tests_cant": "rules nest without bound, and a condition, an alternative list or an argument list can be broken over lines anywhere in the source", "anchors": ["printer/printer.go: Bytes, Fprint", "parse/parse.go: String", "parse/rules.peg: Condition, Rule", "parse/internal/goexpr/parse.go: Parse"]}
{"id": "C72", "title": "Reformatting a source does not change its rules", "statement": "Between the words of a source (parentheses, opcodes, bracketed parts, variables, calls, &&, conditions, =>, blocks) white space and comments may be put, removed or exchanged at will, as long as words do not run together, a block is followed by a blank other than a newline, and only blanks stand between a condition and its arrow: the source is accepted, and the rules are the same. Every accepted source is made of such words and layout, so every source can be reformatted this way. (Inside bracketed Go expressions layout is not free: a line break can make them invalid.)", "quantifier": "every list of words of the language and every layout of them; every accepted source and every reformatting of it", "why_tests_cant": "infinitely many layouts, at every place of every rule", "anchors": ["parse/rules.peg: _, __, Whitespace, Comment, Rule, SExpr, Condition, Block", "parse/parse.go: Reader, String"]}
{"id": "C73", "title": "A source can be cut into its rules", "statement": "Every accepted source is the concatenation of one text per rule, each of which is accepted by itself and gives that rule alone. Such texts may be left out, repeated, put in another order and mixed with those of other sources: on lines of their own they give those rules in that order. So a rule of a source can be read, moved or removed without regard to the others.", "quantifier": "every accepted source, every selection and order of its rules, every behaviour of go/parser.ParseExpr in which a comment alone is not an expression", "why_tests_cant": "the parser's look-ahead (conditions up to the next arrow, results that could be calls, blocks) could reach into the next rule for some combination of rules", "anchors": ["parse/rules.peg: File, Rule, Condition, Block, Value", "parse/parse.go: Reader, String"]}
{"id": "C74", "title": "Changing the inputs changes only what it must", "statement": "If rules are added after all others, in the last file or in further ones, the command writes the scripts it wrote before, under the same names and before all new ones, and the new ones have new names. If the same rules come in another order or in other files, it writes the same scripts, each as often as before, under other numbers. Files in the output directory that are not names of scripts of this run keep their contents; in particular scripts of former runs over more rules stay, so the directory may hold scripts of no current rule.", "quantifier": "every two successful runs, whatever the sources, the output directories and the former contents", "why_tests_cant": "two unbounded inputs that are compared", "anchors": ["cmd/ssarules/main.go:run", "cmd/ssarules/main.go:load"]}
{"id": "C75", "title": "The rules whose scripts are unsatisfiable are an equational theory", "statement": "Call a rule proved when its script exists, uses legal names, and is unsatisfiable. The rule a => b is proved exactly when it has neither condition nor block, its match is an expression, its names are legal and both sides always have the same value in a common typing. So the proved rules are closed under the laws of equality: a => a is proved for every tree with a script; from a => b follows b => a unless b is a lone variable; from a => b and b => c follows a => c; and if proved rules that bring in no variables rewrite a into b in any number of steps at any places, then a => b is proved and b has no new variables. Not every rule is proved.", "quantifier": "every rule, all trees, all sets of proved rules, every sequence of rewriting steps", "why_tests_cant": "all trees, all values of 64-bit variables, all sequences of steps", "anchors": ["smt2/generate.go:Generate", "smt2/ops.go:operations"]}
{"id": "C76", "title": "Visitors that modify the tree", "statement": "Walk, Inspect and Contains on real memory, with pointers, slices and sharing. A visitor that only reads makes Walk do exactly what it does on the tree that memory holds (C31-C33) and leaves memory as it was. A visitor may also write, anything anywhere: Visit comes before the node's fields are read; its children are then those that memory holds when their turn comes (a field when the walk gets to it, a slice's elements one by one, as many as the slice had when its field was read), with the visitor returned at the parent; Walk succeeds exactly when there is such a finite tour and the stack is deep enough. Inspect with a callback that changes attributes of every S-expression (binding, type, auxiliary expressions dropped, ellipsis, trailing) applies the change to each S-expression once for each time it is met from the root, and changes nothing else in memory; so if doing the change twice is doing it once, the File afterwards holds the tree with the change made at every S-expression, however its nodes are shared, and every File that shares no S-expression with it is as before. (A change that is not idempotent is made twice to a node that occurs twice.) Whatever the change, it is made exactly once where no S-expression is met twice, and that is so in every file fresh from the parser: parse, change every S-expression with Inspect, print gives the text of the changed tree, with ExpandAlternates in between that of its expansion, and what was in memory before parsing is untouched.", "quantifier": "every memory; every visitor, reading or writing; every change of attributes; every input text; every stack", "why_tests_cant": "all memories, all sharing patterns, all visitors", "anchors": ["ast/walk.go:Walk", "ast/walk.go:Inspect", "ast/walk.go:Contains", "ast/walk.go:inspector.Visit"]}
{"id": "C77", "title": "Traversing rules built by hand, with visitors that change them", "statement": "In all memory that code accepted by the Go compiler can come to, with nil, shared or cyclic pointers, Walk and Inspect with any visitor that itself does only what the compiler accepts (it may build, assign, parse and expand, at any node and in the middle of the traversal) keep memory type-correct, whatever the outcome. The traversal itself never indexes out of range and returns no error: it can only panic for a nil pointer to a struct whose fields it needs, for a nil interface (UnexpectedType), for the end of the stack, or because Visit panicked. A visitor is shown a nil node before its fields are read, and by returning nil keeps Walk from reading them. A visitor that only reads and always goes on gets through a File, Rule or Value exactly if its levels fit the stack and it has no nil *SExpr, nil Value, nil Op or nil opcode part (a nil *Expr is no obstacle); so it never gets through a rule with an S-expression that is an argument of itself, on any stack. Contains with a predicate that reads answers yes only if some node below satisfies it, no only if none does, and else panics for a nil node or the end of the stack.", "quantifier": "every memory a program can come to; every visitor; every stack", "why_tests_cant": "all memories and all visitors, including ones that rearrange the tree under way", "anchors": ["ast/walk.go:Walk", "ast/walk.go:Inspect", "ast/walk.go:Contains", "internal/errutil/errutil.go:UnexpectedType"]}
