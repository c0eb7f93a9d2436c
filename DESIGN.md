# Formal model of mmcloughlin/ssarules in Rocq (Coq 8.16.1)

`properties.jsonl` states the properties in English, `MANIFEST.json` names the theorems,
`rocq/theories` holds the model, the specifications and the proofs, and
`seeded/LOG.jsonl` records the wrong programs the theorems were tried against.

## Layout (rocq/theories)

**Model.** Definitions only; every definition cites the Go lines it models.

| file | models |
|---|---|
| Text.v | byte strings, `%d` / `%04d`, results (Ok / Err / Panic) |
| GoAst.v | the go/ast and go/token fragment held by ast.Expr |
| Ast.v | ast/ast.go, internal/errutil |
| Walk.v | ast/walk.go, rules/rules.go |
| Expand.v | pass/alt.go on trees |
| Heap.v | pass/alt.go again, on a heap: pointers, slices with shared backing arrays, append; a program is a tree of memory accesses |
| HeapWalk.v | ast.Contains (ast/walk.go) and rules/rules.go on that heap |
| HeapVisit.v | all of ast/walk.go on that heap, for visitors that read and write memory while the traversal is under way |
| HeapPrint.v | printer/printer.go and smt2/generate.go on that heap |
| HeapParse.v | the actions and the engine of zparser.go, and parse/parse.go, on that heap |
| Conc.v | goroutines running these, one memory access at a time, in any order |
| Printer.v | printer/printer.go |
| Smt.v | smt2/ops.go, smt2/generate.go |
| Cmd.v | cmd/ssarules/main.go |
| Utf8.v | utf8.DecodeRune, strings.TrimSpace and ReplaceAll (stdlib) |
| GoExpr.v | parse/internal/goexpr/parse.go |
| Peg.v | the pigeon runtime in parse/internal/parser/zparser.go |
| Grammar.v | the grammar table and the action functions of zparser.go |
| PegFile.v | parse/rules.peg, rule by rule |
| Parse.v | parser.Parse*, parse/parse.go, error lists |
| Count.v | the runtime's expression counter and its limit, zparser.go:1659-1661, 1977-1979, 2283-2288 |
| GoParser.v | reference model of stdlib go/parser.ParseExpr (external; see below) |
| Path.v | reference model of stdlib filepath.Join and Clean (external) |
| ReadAll.v | reference model of stdlib io.ReadAll and strings.Reader (external), parse.Reader on a reader |
| Quote.v | reference model of stdlib strconv.Quote (external) |
| Dump.v | ast.Fprint, ast.Print, ast.Dump, ast/ast.go:91-108, with a reference model of stdlib go/ast.Fprint (external) |
| HeapDump.v | ast.Fprint and ast.Dump on that heap, with go/ast.Fprint's table of pointers already met |
| Flag.v | reference model of stdlib flag for the command's one flag (external), main.go:18-31 |

**Specifications** (`Spec*.v`). Small vocabularies that do not mention the code's helpers:
SpecTree (children, preorder, occurrence), SpecExpand (group sizes, instance i), SpecPrint
(concrete syntax as text), SpecSmt (an SMT-LIB reader, sorts and evaluation; Go integer
semantics; typing and validity of rules), SpecSyntax (written forms of a source), SpecSource (Go parsers without comment expressions,
rules with a condition), SpecTrees
(well-formed trees), SpecUtf8 (RFC 3629), SpecTrim (Unicode white space), SpecErr (places in
a source), SpecCmd and SpecRun (runs of the command), SpecKill (the
order of a run's actions, killed runs), SpecFlag (command lines), SpecPath (where a path leads), SpecExpect (the terminals tried while reading, and what the items of an error's list mean), SpecRewrite (instances of
rules, rewriting steps), SpecRead (what a
reader delivers), SpecDump (documents, pages, writers), SpecShare (documents with references to objects), SpecHeap (the tree at a pointer), SpecVisit (what a node in memory stands for, traversals of memory that changes, editing attributes, the addresses met), SpecSafe (what code that the compiler accepts does to memory, nodes that a walk gets past), SpecConc (closed memory, data races), SpecNil (nil pointers in rules), SpecTyped (memory as Go's types have it), SpecBuilt (the memory a program can come to), SpecFresh (the memory a file is made of), SpecOwn (what an expanded rule shares with its source), SpecSize (bytes), SpecLines (line breaks), SpecLayout (words and the layout between them), SpecOrder (what counts in a list of operands), SpecModel (models of scripts), SpecDiag and SpecSmtErr (faults and their messages),
SpecGo, SpecWords and SpecBack (Go expressions that can be written and read back, by the language specification; identifiers and literals), SpecScan (what the reference scanner reads as one word), SpecPeg (meaning of
a PEG).

**Proofs**: the remaining files. **`Properties*.v`**: the property theorems, each followed
by `Print Assumptions` and by an `Example` in which a non-trivial case meets its hypotheses.

| file | properties |
|---|---|
| PropertiesParse.v | C01-C04, C06-C16, C20, C26 |
| PropertiesGo.v, PropertiesBack.v | C05; C03, C04, C20 for the reference Go parser |
| PropertiesRead.v | C55 |
| PropertiesRewrite.v, PropertiesTheory.v | C56, C57; C75 |
| PropertiesVisit.v, PropertiesSafe.v | C76; C77 |
| PropertiesPeg.v | C49 |
| PropertiesPass.v | C50 |
| PropertiesLayout.v, PropertiesOrder.v, PropertiesCut.v | C72; C16; C73 |
| PropertiesLocal.v, PropertiesExpect.v | C51; C65 |
| PropertiesCost.v | C52 |
| PropertiesPrint.v, PropertiesLines.v | C17-C19; C71 |
| PropertiesExpand.v, PropertiesHeap.v | C21-C29; C30 |
| PropertiesTree.v | C31-C35 |
| PropertiesDump.v | C58, C59 |
| PropertiesConc.v, PropertiesHeapPrint.v, PropertiesFresh.v, PropertiesSize.v, PropertiesOwn.v, PropertiesTyped.v | C60; C66; C67; C68; C69; C70 |
| PropertiesDiag.v | C61 |
| PropertiesBlame.v | C62 |
| PropertiesShare.v | C63 |
| PropertiesSmt.v, PropertiesModel.v | C36-C42; C37 |
| PropertiesCmd.v, PropertiesKill.v, PropertiesFlag.v, PropertiesPath.v, PropertiesIncr.v | C43-C48; C48, C53; C54; C64; C74 |

## Trusted base

* Coq's kernel, including its `vm_compute` (used for the examples and for finite tables such
  as the operator table of smt2).
* `Print Assumptions` answers "Closed under the global context" for every theorem in
  `MANIFEST.json`: no axiom is used, not even one of the standard library. The seven
  `Coq.ssr.ssrunder.Under_rel.*` entries that a scan of the compiled files reports are the
  fields of a module type of Coq's own ssreflect library, loaded (not used) through the
  standard library.
* The reading of the Go code into the model: the citations let one check it line by line.
  As a sanity check the executable model was run (`vm_compute`, outside the build) on all
  sixteen internal/testdata/*.rules files: parsing with GoParser.v and printing gives
  printer/testdata/*.golden byte for byte.
* The specifications in `Spec*.v`: they say what the theorems mean.

### What is modelled, and what is not

All non-test code of /repo is modelled: packages ast, pass, printer, rules, smt2, parse
(with its internal goexpr and parser packages and rules.peg), cmd/ssarules and
internal/errutil. Not modelled: test files, internal/test, and the following aspects.

* `go/parser.ParseExpr` is a *variable* (`gp`) of the parser model: the theorems hold for
  every function in its place, returning, failing or panicking. GoParser.v is a concrete
  stand-in for it (Go 1.16; all its literals; identifiers by the letters and digits of Unicode 13.0, tables in Unicode.v generated from the character database; the node types that goexpr.Parse accepts: anything else is
  an error, as it is in goexpr.Parse). It is used for witnesses, refutations, and the
  theorems that need to know the Go parser: C05, C03_trees, C04_parsed_files, C20_trees, and
  side conditions such as "no tree has a missing part" (proved of it).
* File system: opening, reading, closing and writing succeed or fail as given by arbitrary
  functions; the last write to a path wins; a
  write that is interrupted leaves a beginning of the contents (C53). `filepath.Join` is Path.v. Standard error is the
  list of log messages and the text that log.Logger makes of them. `flag` is Flag.v.
* `ast.Ident.Obj`: nil in what ParseExpr returns since Go 1.17. (Go 1.16 sets it to one sentinel object that all unresolved identifiers share and nobody writes; it would show up in dumps, so what C58, C59, C63 and C67 say about dumps of Go expressions is for 1.17 and later.)
* Overflow of machine integers used as byte offsets and counters, and memory exhaustion. Nil pointers of all kinds are in the
  heap models (C63, C66, C70, C77), not in the tree models. The heap models have a stack of some depth, whose end is an outcome of its own
  (in Go a fatal error, here a panic); the tree models have none.
* Dumps: Dump.v has trees only, HeapDump.v has pointers met more than once (C63), except that
  the go/ast nodes inside an ast.Expr are one cell; slices that are empty but not nil. The table of printable characters beyond ASCII is a
  variable, and so is the printing of Go expressions of types goexpr.Parse rejects.
* Pointer identity and aliasing except on the heap of Heap.v (parsing, expansion, the feature tests, printing,
  Generate, dumps and traversals: C30, C60, C63, C66, C67, C76, C77). Heap.v's simplifications: Go expressions
  are opaque cells; the slices inside an opcode are read in one go; local slices that never
  escape are lists; the recursion depth is a parameter (a run that exceeds it is not counted
  as success, and the theorems show which depth suffices); the spare capacity that append
  allocates is an arbitrary function.
* The pigeon options, statistics and expression kinds that this package does not use. The
  expression counter is left out of Peg.v; Count.v has it, and C52 proves that leaving it out
  changes nothing for sources of up to 10^8 bytes.

## Properties: what is modelled, how it is proved

| id | model vs specification | proof |
|---|---|---|
| C01 | Parse.v, Peg.v | a consumption analysis of the grammar gives a recursion bound linear in the input (PegTerm.v); panics are recovered; messages are never empty (ErrFacts.v) |
| C02 | Parse.v vs SpecSyntax.v | the engine agrees with the PEG semantics SpecPeg.v (PegAgree.v, by induction on fuel and on derivations); derivations correspond to written forms, by induction both ways (Syn*.v) |
| C03, C20 | Printer.v, Parse.v vs SpecTrees.v, SpecBack.v | the printed text is a written form (SynPrint.v), then C02; C03_trees/C20_trees use C05 for the Go expressions (GoBack.v); the converse C03_exactly compares with a reader that answers something for every text (ExactBack.v, SynPrint.v sub_*) |
| C04 | as C03 | parsed trees are well formed and ordered (SynShape.v, GoOrdered.v); refutation shows the provisos are needed, C04_exactly that they are exact (a literal read back as it was written lost no carriage return, by counting them: GoReturns.v) |
| C05 | Printer.v, GoExpr.v, GoParser.v vs SpecGo.v | printed tokens are scanned one by one (GoLex.v), precedence climbing rebuilds the tree by induction (GoTree.v); numbers cut into parts (GoNumber.v), source characters (GoChars.v); the scanner's words are exactly those of the language specification (GoWords.v); the converse reads the printed text token by token against the tree the parser built, and counts characters to rule out that a comment swallowed some (GoWeight.v, GoExact.v, C05_exactly); refutations beside it |
| C06, C07 | Parse.v | closure of written forms under concatenation and padding (SynExtend.v) |
| C08, C09, C14, C16 | Parse.v vs SpecTrees.v, SpecSyntax.v | by induction on written forms, through C02 |
| C10, C15, C35, C42 | | the claim is false of the code: refutations; what does hold is proved |
| C11, C12, C13 | Peg.v, Parse.v vs SpecUtf8.v, SpecErr.v | invariants on parser states (PegPoints.v, ErrFacts.v) |
| C17-C19 | Printer.v vs SpecPrint.v | the printer writes a fixed list of chunks; induction on trees (PrintFacts.v) |
| C21-C29 | Expand.v vs SpecExpand.v | induction on trees (ExpandFacts.v, FeatureFacts.v) |
| C30 | Heap.v vs SpecHeap.v | every step only adds cells or writes fresh ones; simulation with Expand.v (HeapFacts.v) |
| C31-C34 | Walk.v vs SpecTree.v | induction on trees (TreeFacts.v) |
| C36-C41 | Smt.v vs SpecSmt.v | reading back the generated text (SmtRead.v), semantics of terms against Go integers (SmtArith.v, SmtSem.v), typing (SmtGen.v) |
| C43-C48 | Cmd.v vs SpecCmd.v, SpecRun.v | composition of the above (CmdFacts.v, CmdRun.v, CmdParse.v) |
| C49 | Grammar.v vs PegFile.v, SpecPeg.v | a simulation between grammars up to inlining of rules, renaming of actions, merging of classes and flattening of a sequence, in both directions (PegSim.v, PegRules.v) |
| C50 | Expand.v, Printer.v, Parse.v | expansion keeps rules lexically valid and only copies Go expressions (ExpandParse.v), then C03/C04 |
| C51 | Peg.v, Grammar.v, Parse.v | two runs on texts that agree up to k+8 are related step by step until a match goes past k, after which no match can fail without moving the farthest failure past k (PegLocal.v) |
| C52 | Count.v, Grammar.v | a cost relation on lists of characters with the farthest look (PegCost.v); for the expressions of the grammar the cost is at most 400 per character looked at, by strong induction on the text and an amortised bound for repetitions; a rule is linear, a file quadratic (CostGrammar.v) |
| C53 | Cmd.v vs SpecKill.v | the world of Cmd.v is the list of actions in order; the loop's actions are a history (CmdKill.v, by induction), and every killed history is a history of the first rules plus a beginning of a write; a run does not look at what was done before, so repeating it overwrites everything, also after attempts in which other writes failed |
| C54 | Flag.v, Cmd.v vs SpecFlag.v | each parsing step is characterised in both directions (FlagFacts.v), then C45 |
| C55 | ReadAll.v, Parse.v vs SpecRead.v | induction on the delivery |
| C56 | Smt.v vs SpecRewrite.v | typings and scripts carried along the renaming |
| C57 | Smt.v, Cmd.v vs SpecRewrite.v, SpecSmt.v | C37 and substitution in the meaning; induction on steps |
| C58 | Dump.v, Quote.v vs SpecDump.v | printer state as a list of lines; simulation; any writer sees the same pieces |
| C59 | Dump.v, Quote.v vs SpecDump.v | page, lines, document and tree each determine the next; quoting is read back |
| C60 | Heap.v, HeapWalk.v, HeapPrint.v, HeapParse.v, Conc.v vs SpecConc.v, SpecFresh.v | a program run at other addresses does the same (a relation on programs, ConcFacts.v, ConcParse.v); what a goroutine sees and what it owns, and that no pointer leads to a File (ConcAlone.v): nobody sees what another owns (invariant of the schedule, ConcRun.v) |
| C61 | Expand.v vs SpecDiag.v | running counts over the groups read so far; induction on values, no assumption on the tree (DiagFacts.v) |
| C62 | Smt.v vs SpecSmtErr.v | both directions by induction (on values, on the blame derivation), the state being the typings of the variables met so far (SmtErrFacts.v) |
| C63 | HeapDump.v vs SpecShare.v | simulation with the pointers met so far and their lines; induction on the number of objects not met yet (HeapDumpFacts.v); the document is determined event by event (HeapDumpUnique.v) |
| C64 | Path.v, Cmd.v vs SpecPath.v | the loop of Clean computes a stack of names (PathFacts.v), which leads where the path led, by induction on its names; refuted in the presence of links |
| C65 | Peg.v, Parse.v, Grammar.v vs SpecExpect.v | by induction on the recursion bound the engine's record of failures is a fold over the trace of the recogniser (ExpectFacts.v); the list is sorted and deduplicated, and the displayed names are checked against the terminals, all 256 bytes (ExpectText.v); completeness refuted |
| C66 | HeapPrint.v vs SpecHeap.v, SpecNil.v, Printer.v, Smt.v | simulation with the tree models (HeapPrintFacts.v); the first nil pointer met stops the printer, by induction on depth; programs without writes, by induction on programs (HeapNil.v) |
| C67 | HeapParse.v vs SpecHeap.v, SpecFresh.v, Parse.v | simulation with the parser on trees, by induction on its recursion, with the cells of every value counted: each value is made of cells made since its expression began, each used once; a syntactic check of the grammar shows that no value reaches two places (HeapParseFacts.v); for dumps, the objects of a file without sharing are each met once (FreshDump.v), then C63 |
| C68 | Parse.v, GoParser.v, Expand.v, Printer.v, Smt.v, Cmd.v vs SpecSize.v | induction on the written forms of C02 (every token pays for its printed form, SizeGo.v), on trees for instances (C21), on typed values for scripts (C38) and on faults for messages (C62), then C44, C45 and C48 (SizeFacts.v, PropertiesSize.v; a joined path is at most two bytes longer than its parts); a family of files refutes a linear bound for expansion |
| C69 | Heap.v, HeapParse.v vs SpecOwn.v, SpecFresh.v | the pass is followed once more on the heap, with the list of the cells each instance has been given and the invariant that no array still open for append is among them (OwnFacts.v); then what an edit of one cell can reach (OwnUse.v); with C67 for parsed files; a program that edits one instance and changes both refutes independence |
| C70 | Heap.v, HeapWalk.v, HeapPrint.v, HeapParse.v vs SpecTyped.v, SpecBuilt.v, SpecNil.v | a Hoare logic whose assertion is that memory is type-correct and no cell changes its kind, through every function of the pass (TypedFacts.v); by induction on the stack depth, printing meets a tree or a panic, a walk or an expansion that returns has met everything, and what has bounded depth has no cycle (TypedRead.v); the parser's actions and engine by the same logic (TypedParse.v), then induction on histories |
| C71 | Printer.v, Parse.v vs SpecLines.v | the printed text is the concrete syntax of the tree (C17); by induction on well-formed values and expressions its line breaks are counted (LineFacts.v); what the parser returns is well formed (C15) |
| C72 | Parse.v vs SpecLayout.v | by induction, words under any layout are written forms (SpecSyntax.v) of one tree, and every written form comes from words and layout (LayoutFacts.v); then C02 |
| C73 | Parse.v vs SpecSyntax.v | the written form of a rule does not depend on what comes after the layout that follows it (CutFacts.v); a piece ends in an ASCII byte, so cutting keeps UTF-8; C02, C06 |
| C74 | Cmd.v vs SpecRun.v, SpecCmd.v | the rules of a run are a function of the rules in the files, which respects concatenation and permutation (sifted_split, sifted_perm); so are the outputs (outputs_split, outputs_scripts); the last-write-wins file system of SpecKill.v for what stays |
| C75 | Smt.v vs SpecSmt.v, SpecRewrite.v | C38 and C37 turn "proved" into validity; all variables of a typable tree have its type (typed_one), so one constant typing serves for both premises of transitivity; C57 for rewriting |
| C76 | HeapVisit.v vs Walk.v, SpecTree.v, SpecVisit.v | for a visitor that only reads, induction on the tree at the pointer; for any visitor, both ways between the program and a relation that says what is visited in memory as it changes (TourFacts.v); for one that edits, the invariant that memory is the old one with each S-expression edited as often as its address was met so far (VisitFacts.v), from which the tree afterwards follows where editing is idempotent or no address is met twice; the addresses met are among the cells of C67, so in a parsed file none is (VisitFresh.v), and C30 and C66 give what is expanded and printed then |
| C77 | HeapVisit.v vs SpecSafe.v, SpecTyped.v, SpecBuilt.v, SpecNil.v | a Hoare logic whose assertion is that memory was reached by steps that Go allows, so that it is type-correct, no cell changed its kind and no slice in an ast.Op its length, through every function of ast/walk.go; for a visitor that reads and goes on, that Walk decides whether the value is shallow enough and free of nil nodes, by induction on the stack depth; likewise what Contains answers, for the nodes below one in memory (SafeFacts.v) |

Names ending in `_refuted` prove that a claim one might expect is false, with a witness;
nothing is `_partial`.

## What the code gets wrong (found by the proofs)

1. A condition with a `// comment` line: newlines become blanks before go/parser sees the
   text, so the comment swallows the rest of the condition (C15_comment_swallows_refuted;
   visible in printer/testdata/generic.golden:700,749 and S390X.golden:385). And
   `a && // note` followed by `b` on the next line is rejected.
2. The printer puts no blank where two operators merge: `a - -b` prints `a--b`, `a & ^b`
   prints `a&^b`, `a & &b` prints `a&&b`, `a / *p` prints `a/*p`, `- -x` prints `--x`;
   the second and third silently read back as other expressions. `1 .x` prints `1.x` (C05).
3. clearpos zeroes CallExpr.Ellipsis, which is not only a position: `f(xs...)` becomes
   `f(xs)` (C10).
4. Walk, Inspect and Contains skip Condition, AuxInt and Aux (C35).
5. expandopcodeparts panics on a hand-built one-member alternative next to a larger one (C26).
6. Printing an OpcodeAlt node on its own is an error; an empty one prints `)` (C18).
7. Grammar surprises (C02): a block name may contain newlines; a condition needs a character
   before `=>` (`c!=0=>x` is rejected); a trailing `//` comment without a newline is rejected;
   a source of only comments is rejected while the empty source is accepted (C06, C07); `=>`
   inside a string literal ends the condition; `x => _y => z` is two rules.
8. A raw string that spells `=` CR `>` becomes a literal `=>` which cannot be read back in a
   condition (C04_stability_refuted).
9. SMT: all `_` share one constant, so some invalid rules are reported valid (C42); variables
   named like SMT-LIB reserved words give ill-formed scripts (C36); the comment guard handles
   only LF, not CR (C41, only for hand-built names).
10. An action that fails in an alternative that is abandoned later still fails the parse
   (C14); a newline is reported as column 0 of the next line (C12).
11. Two different trees can have the same dump, when a type annotation has a newline in it
   (C59): parse_test.go shows trees to the user as dumps.
12. The parser keeps no memory of what it tried. The grammar still makes it at most quadratic
   (C52), and the grammar alone does not make it linear (C52_growth).
13. `-outdir link/..` with a symbolic link writes to the current directory, not to the parent of
   the link's target (C64).
14. The list of what was expected leaves out what was tried a little before the reported byte: for
   `(A _` it has no `"___"`, although `(A ___) => x` parses (C65).
