# Formal model of nixd: design

Subject: nix-community/nixd at the pinned commit in `/repo` (C++), read as text.
Prover: Rocq / Coq 8.16.1, standard library only.

## 1. Layout

`rocq/theories` holds, for each area `X`:

* `XModel.v`  - the executable model, function by function; each definition cites the file and lines it models and
  says where it simplifies. No proofs.
* `XSpec.v`   - a small specification written from the English property (LSP text, Nix manual, the repository's own
  comments) that does not mention the model's helpers.
* `XProofs.v` - lemmas.
* `XProps.v`  - the property theorems only, each closed by `exact`, with `Print Assumptions` and a non-vacuity
  `Example` beside it.

Conventions:

* bytes are `Ascii.ascii`, documents are `list ascii`; offsets and columns are `nat` (theorems never evaluate large
  numerals); protocol integers are `Z`/`N`.
* an assertion failure, null dereference, uncaught exception or out-of-bounds read is a *distinct* outcome
  (`Crash`), never a default value. Asserts are modelled as live: the repository's meson files never set `b_ndebug`.
* C++ loops become structural recursion or recursion on explicit fuel with a distinct `OutOfFuel` outcome; theorems
  about such functions either prove that `OutOfFuel` cannot occur for the fuel the entry point supplies or say so.
* node identity (C++ pointers) is modelled by identifiers allocated from a counter, so sharing of nodes between the
  raw tree and the desugared tree is visible.
* when the English property is false of the faithful model, the counterexample is proved as `..._refuted`
  (witness checked by `vm_compute`) and the part that does hold is proved as `..._partial`.

## 2. Trusted base

* Coq's kernel (including `vm_compute` for witnesses and examples).
* `Print Assumptions` of every property theorem: see section 5 (kept up to date).
* The correspondence between the C++ text and the models, reviewed by hand; simplifications are listed in the
  comments of the models and summarised in section 4.
* Environment assumed, not modelled: C/C++ standard library semantics (`std::map` ordered by key, `std::string`,
  `isalnum`/`isspace` in the "C" locale on bytes 0..255), the JSON parser of LLVM, the operating system's pipes and
  processes (modelled abstractly), the Nix evaluator and the generated primop table (parameters of the model).

## 3. Plan per property

| id | what is modelled | how it is proved |
|----|------------------|------------------|
| C01 | all of Lexer.h/Lexer.cpp over a byte list with `Crash` for a failing `consume` assertion | refutation: `"\` and `''\` at end of file crash; partial: every other call is safe, exact characterisation of the crashing states by case analysis of each mode |
| C02 | same | measure on the remaining input; induction for the whole token stream |
| C03 | same | slice lemma for every consume primitive; induction over the stream for tiling; trivia characterised by an inductive grammar |
| C04 | same | invariant "cursor = spec cursor of its offset" preserved by every primitive, backtracking included |
| C05 | same | case analysis on the dispatch; refuted by `\|\|\|>`; proved for all other tokens |
| C06, C07 | SourceCode.cpp | induction on lists of Unicode scalars / on raw bytes |
| C08, C09 | applyChange, TextDocumentSync.cpp | refinement to a client editing a list of scalars in UTF-16 units; fold over histories |
| C10 | DraftStore.cpp | induction on decimal strings; invariants over operation lists |
| C11, C12 | URI.cpp | induction on byte lists; `/c:/x` refutes the unrestricted round trip |
| C13 | Connection.cpp reading and writing over a stream split into arbitrary chunks | reader shown independent of chunking; round-trip by induction on the message list |
| C14, C16 | Connection::dispatch, LSPServer.cpp | transition system over message lists; refuted for unknown methods and for non-integer reply identifiers; partial for registered methods |
| C15 | bindReply/onReply | invariants of a transition system over all interleavings |
| C17 | the full recursive-descent parser (Parser.h, Parse*.cpp) with lookahead buffer, mode stack and sync multiset, on top of the lexer model and the semantic actions | fuel linear in the length suffices, by induction with a progress invariant |
| C18, C61, C63 | same | invariants of parser states and results |
| C19 | same | refuted by several documents; partial: crash points classified |
| C20 | parseExprOpBP inside the parser | structural invariant on produced trees; refuted for `/`, `\|>`, `<\|`, `!` |
| C21 | parseStringParts, mergeFragments | equality with a reference unescaper for double quoted strings; refuted for indented strings |
| C22, C62 | diagnostics produced by lexer, parser, semantic actions, lookup | invariant on the diagnostics list |
| C23-C26 | SemaActions.cpp inside the parser | invariants over binding lists; equality with a path-map specification; then an invariant of every parsing function (Doc*.v): each set, list of formals and argument of the tree was built by its action once, its reports are in the document's reports one after the other, and there are no other reports of these kinds |
| C27-C31 | VariableLookup.cpp over the tree | agreement with a declarative scoping relation, by induction on the tree |
| C32, C33 | ParentMap.cpp, Node::descend | induction on the tree |
| C34, C35, C70 | FindReferences, Rename, Definition on top of C27 | edits and references equal the occurrences given by the scoping relation; refuted for duplicate edits, inherited attributes and an abort |
| C36 | Convert.cpp | refuted by a non-ASCII line; proved for ASCII lines |
| C37 | SemanticTokens.cpp | decode after encode, induction |
| C38, C39 | DocumentSymbol.cpp, FoldingRange.cpp | induction on the tree |
| C40-C42 | Completion.cpp, AttrSetProvider.cpp, AST.cpp | counting lemmas; refuted for option completion and for a lone `config` |
| C43-C46 | CodeActions/Utils.cpp, AttrName.cpp, JsonToNix.cpp with the lexer/parser model | round-trip through the lexer |
| C47, C48, C50, C51 | FlattenAttrs, PackAttrs, ConvertToInherit, InheritToBinding (BindModel) | the texts of parts of the document are put together again: lemmas on what may follow the text of a node, then equality of attribute trees and of bound variables (BindSpec); refuted where capture or loss is possible |
| C49 | RewriteString.cpp | the written literal against the lexical rules and the value of a literal |
| C52-C54 | WithToLet, ExtractToFile, AddToFormals | the names collected against the scoping relation of VlaSpec; refuted where a variable is captured or missed |
| C55 | Diagnostics.cpp | list reasoning |
| C56, C57, C71 | Format.cpp / ForkPiped.cpp, semaphores and pending calls | transition systems (ProcModel); well-founded steps and progress for formatters whose output fits; refuted by schedules that hang, kill the server, or leak descriptors |
| C72 | the ranges built in Parse*.cpp | the grammar derivation of C68 carries for every node the items it is made of; contract of each parser function extended with "the first and last item are at the ends of the range" |
| C58 | Protocol/AttrSet.cpp | per-type round trip over a JSON value model |
| C59 | Controller's TU map and worker pool; Format.cpp's reference into the store | invariant over interleavings; refuted for formatting |
| C60 | libnixt Value.cpp | induction on the path |
| C64 | URI canonicalisation and publishing | case analysis on paths; refuted for drive-like paths |
| C65 | Value.cpp selection with its writes to shared type values | induction on query histories |
| C66 | the lexer model, all modes | each token form shown maximal; the list of documented spellings by a length bound |
| C68, C20, C21 | the parser model against a declarative grammar (GramSpec) | for runs without errors: contract for each parsing function, induction on fuel; item sequences relate offsets to text; sub-derivations for parts of the tree |
| C69 | checkBuiltins and checkLetInheritBuiltins inside the analysis | two more kinds of report followed through the induction over the tree; the scope-blind hint is refuted |
| C73 | the parser and lowering models | invariant of every parsing function: the parts built since identity `lo` have identities in `[lo, hi)`, parts are disjoint, and each entry of an attribute table is a node of the set, a made-up set over such nodes, or a made-up inherited name; then induction over the tree and over visits |
| C74 | the whole variable analysis on parsed trees | total-correctness logic for the analysis monad: scopes hold only nodes of the document, every optional part read is there by the typing of parsed trees, tables have distinct names; refuted for internal builtins |
| C75 | the whole parser run forward on the tokens of a term | terms, their tokens and trees defined on their own (AccSpec); forward logic over a known token sequence; one lemma per parsing function, operators by continuation over the left spine; refuted for applications of sets and numbers |
| C76 | the code actions of C47 to C54 on every parsed document, with errors or not | every node they reach is in the tree, whose ranges lie in the text (C18); the pointers kept by the analysis lead to nodes (C73, C74) |
| C77, C78 | DocumentHighlight, quick fixes of CodeAction (ReqModel) | on top of C70 and C22; membership lemmas |
| C79, C80 | idiom selectors, havePackageScope, InlayHints | a relation `meant` between expressions and attribute paths; the analysis' records of `with` lead back to the expression; refuted against the scoping of Nix |
| C81, C82 | DocumentLink, PathResolve, NoogleDoc | induction on the tree; path arithmetic against a declarative join; injectivity of the address |
| C83 | Configuration.cpp | the settings object written by a specification is read back; lookup lemmas for ordered maps |
| C84, C85 | Hover, Definition | on top of C79; refuted where an exception escapes |
| C86, C87 | Protocol.cpp readers and writers of code actions and completion items, the two resolve requests (MsgModel) | round trips field by field on top of C43's; refuted where reader and writer disagree |
| C88 | Protocol.cpp readers of five kinds of request | a specification of what a message says (fields by name, others ignored) implies the value read |
| C89, C90 | FoldingRange's JSON form; fillInsertText | how a client reads a missing column; an interpreter of snippets as specification |
| C91 | nixf-tidy, JSONDiagnostic.cpp (ToolModel) | what a JSON value shows is a relation of its own; every writer is proved to satisfy it, and the relation to be functional |
| C92 | dispatch loop with onShutdown and main's status | any history, then shutdown and exit; refuted by short histories |
| C93 | all fixes of the parser model, SemaModel and VlaModel | a relation between titles, edits and the range the diagnostic marks (FixSpec), carried as part of the invariant on diagnostics through every function of the parser and the analysis; refuted by short documents |
| C94 | parser, lowering of bindings (SemaModel), VlaModel | every binding list that is lowered without reporting a name twice keeps each value and dynamic name (SeenBase, induction over addAttr, insertAttr, lowerInherit, lowerBinds); induction over the grammar of accepted documents (C68) shows that the walk of VlaSpec reaches every variable; the answers by C27 and C28; refuted by three short documents |
| C95 | parser, lowering of bindings (SemaModel), semantic tokens (FeatModel) | every binding list that is lowered without reporting a name twice keeps each value under a plain attribute, because an inherited attribute is never a set (ShownBase: shown, tamed); induction over the grammar of accepted documents (C68) shows that the walk over the tree emits a token for each variable in view (ShownSpec: in_view); decoding by C37; refuted by five short documents |
| C67 | the lexer model, all modes | uniqueness of the decomposition of a text into trivia and an open comment; shape of floats |

Properties that a model cannot express: none so far; C57's "completes" is expressed as reachability of a reply.

## 4. What is modelled and what is not

Model files and the code they model (each definition cites file and lines):

| model | code | simplifications and omissions |
|-------|------|-------------------------------|
| Base, Diag | nixf/Basic: Range, Diagnostic, Fix, Note | cursors with unbounded naturals; message texts as constants |
| LexModel | Parse/Lexer.h, Lexer.cpp | none known; `assert` failures are `Crash` |
| PSupModel, ParseModel, AstModel | Parse/Parser.h, Parse*.cpp, Nodes/*.h | pointers are numbered nodes; recursion by fuel (shown sufficient, C17); stack depth not modelled |
| SemaModel | Sema/SemaActions.cpp, ParserASTs | nodes are trees, a node shared by desugaring keeps its number; a set written as a value keeps in the binding list the table it had when it was read, and the table it has after later declarations extended it is in the outer set's table (in the code it is one object) |
| VlaModel | Sema/VariableLookup.cpp | the generated primop table is the parameter `primops`; maps keyed by node number; that nodes with equal numbers are equal is C73 |
| NavModel | Sema/ParentMap.cpp, Basic/Nodes.h descend | same |
| TextModel | lspserver SourceCode.cpp, DraftStore.cpp, applyChange | versions as byte strings; `std::string` sizes unbounded |
| UriModel | lspserver URI.cpp, Protocol.cpp URIForFile | llvm::sys::path modelled for POSIX (LLVM 21); scheme registry empty |
| ConnModel | lspserver Connection.cpp, LSPServer.cpp | poll/read results are an event list; StringRef::getAsInteger, trim, getAsUnsignedInteger modelled; JSON text <-> value by LLVM trusted; each request handler is assumed to reply exactly once (its answer is a parameter) |
| BindModel | CodeActions/{FlattenAttrs,PackAttrs,ConvertToInherit,InheritToBinding}.cpp | an action is the edit it carries; titles and kinds are constants and left out; StringRef::slice clamps |
| ProcModel | Format.cpp, ForkPiped.cpp, Launch.cpp (which descriptors a started process inherits), callMethod / onReply / readLine as far as an evaluator's death is concerned | pipes are bounded byte queues; programs see only their standard input; SIGPIPE and an exception leaving a pool thread both count as the end of nixd; an evaluator replies to each request or dies; execvp's failure is a program that ends with a status |
| FeatModel | nixd Convert, SemanticTokens, DocumentSymbol, FoldingRange, Diagnostics.cpp | std::sort as a stable insertion sort; float symbol names omitted |
| EvalModel | libnixt Value.cpp, Eval/AttrSetProvider.cpp, Protocol/AttrSet.cpp | Nix values are finite trees; a function value is known by its result on one argument; JSON objects as lists |
| CompModel | Controller/Completion.cpp, AST.cpp | items by label; the evaluator's answers are parameters |
| ActModel | CodeActions/Utils, AttrName, JsonToNix, RewriteString | text of JSON floats omitted |
| RefModel | Controller/Rename, FindReferences, findDefinition of Definition.cpp, CodeActions/WithToLet, ExtractToFile, AddToFormals | conversion of ranges to LSP positions left out; the name of the new file is given; comparison of pointers is comparison of node numbers |
| ReqModel | DocumentHighlight, CodeAction (quick fixes), AST.cpp idiom selectors and havePackageScope, InlayHints, DocumentLink, PathResolve.h, CodeActions/NoogleDoc, Hover, Configuration, Definition | the evaluator's answers are functions given as parameters (no answer: None); the file system is three functions (canonical, weakly_canonical, status); workers start at once; an exception that no handler catches is `Crash "std::terminate"`; std::stoi is modelled; ranges in LSP form only for quick fixes |
| MsgModel | lspserver Protocol.cpp (text edits, workspace edits, file operations, code actions, completion items, markup, parameters of position, rename, didOpen, didChange and codeAction requests, folding ranges), CodeAction.cpp onCodeActionResolve, Completion.cpp resolvePackage, onCompletionItemResolve, fillInsertText | llvm::json::parse is a parameter; an uninitialised enumeration that is written is a Crash; commands and diagnostics inside an action left out |
| ToolModel | libnixf JSONDiagnostic.cpp, tools/nixf-tidy.cpp; nixd main and onShutdown | white space of the output left out; the exception of nlohmann::json is raised at the string; answers of other handlers are a parameter |

Hypotheses that stand for facts about the environment are named in the theorems: non-negative LSP positions, answers of
evaluators and formatters. Facts about trees built by the parser are proved (C18, C72, C73, Doc*.v), not assumed.

Not modelled: the Nix evaluator, flake and option loading, process spawning details, logging, the command line and
workspace/configuration requests (their replies are modelled, C83), nix-node-eval, and everything marked
"not yet" in MANIFEST.json (properties without an entry there).

## 5. Assumptions printed per theorem

Every property theorem is followed by `Print Assumptions`. All of them print "Closed under the global context": no
axiom is used. The build loads parts of the standard library that declare the module type
`Coq.ssr.ssrunder.Under_rel` (`Under_rel`, `Under_rel_from_rel`, `Under_relE`, `over_rel`, `over_rel_done`,
`under_rel_done`, `Over_rel`), which `coqchk` lists as axioms of the library; no theorem here depends on them.
