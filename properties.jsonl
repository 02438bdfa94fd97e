{"id": "C01", "title": "Tokenising never reads outside the document", "statement": "Tokenising any document, in any of the four modes (expression, double-quoted string, indented string, path) and from any cursor inside the document, never reads or advances past the end of the text (which would be an assertion failure or out-of-bounds read).", "quantifier": "all byte strings, all lexer modes, all cursors inside the document", "why_tests_cant": "There are infinitely many documents and truncations of documents; an editor sends every prefix of a file while it is typed.", "anchors": ["libnixf/src/Parse/Lexer.h: Lexer::consume, setCur", "libnixf/src/Parse/Lexer.cpp: lex, lexString, lexIndString, lexPath"]}
{"id": "C02", "title": "Tokenising always makes progress", "statement": "On a document that is not exhausted every request for a token either advances the cursor by at least one byte or reports the end of a path; repeatedly asking for tokens therefore reaches the end-of-file token after at most (length + 1) requests.", "quantifier": "all byte strings, all modes, all cursors", "why_tests_cant": "A hang only shows up on the one input that triggers it; a finite test-suite cannot exclude it.", "anchors": ["libnixf/src/Parse/Lexer.cpp: lex, consumeTrivia, lexString, lexIndString, lexPath"]}
{"id": "C03", "title": "Tokens are faithful, ordered, disjoint slices of the document", "statement": "Each token's text is exactly the slice of the document between its start and end; successive tokens do not overlap and appear in document order; everything between two successive expression tokens is white space or comment; concatenating trivia and tokens rebuilds the document.", "quantifier": "all byte strings", "why_tests_cant": "Depends on every combination of characters at every boundary.", "anchors": ["libnixf/src/Parse/Lexer.h: finishToken", "libnixf/src/Parse/Lexer.cpp: lex, consumeTrivia"]}
{"id": "C04", "title": "Reported line and column are those of the byte offset", "statement": "For every cursor the tokeniser reports (token starts, token ends, diagnostics) the line is the number of line feeds before the offset and the column is the number of bytes since the last line feed.", "quantifier": "all byte strings, all tokens, all modes, any sequence of mode switches and cursor resets", "why_tests_cant": "Line/column are maintained incrementally through every consumed byte and through backtracking; a drift appears only after particular character combinations.", "anchors": ["libnixf/src/Parse/Lexer.h: Lexer::consume", "libnixf/include/nixf/Basic/Range.h: LexerCursor"]}
{"id": "C05", "title": "A token's kind and its spelling agree", "statement": "Every keyword, operator or punctuation token has exactly its documented spelling, and every identifier token is a well-formed identifier that is not a keyword.", "quantifier": "all byte strings", "why_tests_cant": "The operator alphabet overlaps (|| / |> / <| ...), so adjacency of operators matters in unboundedly many contexts.", "anchors": ["libnixf/src/Parse/Lexer.cpp: lex, maybeKW", "libnixf/src/Parse/tokens.py"]}
{"id": "C06", "title": "Position to offset and back is the identity", "statement": "For every document and every character boundary, converting a byte offset to an LSP position and back returns the same offset; converting never produces an offset outside the document.", "quantifier": "all byte strings (well-formed UTF-8 for the round trip), all offsets and positions", "why_tests_cant": "Ranges over all documents, including astral characters and ill-formed UTF-8.", "anchors": ["nixd/lspserver/src/SourceCode.cpp: positionToOffset, offsetToPosition, measureUnits, lspLength, iterateCodepoints"]}
{"id": "C07", "title": "Positions are counted in UTF-16 code units", "statement": "The position computed for an offset is (number of line feeds before it, number of UTF-16 code units since the last one); a position whose column is past the end of its line is clamped or rejected exactly as LSP requires, and a position on a non-existent or negative line is an error.", "quantifier": "all documents made of Unicode scalar values, all positions", "why_tests_cant": "Needs all mixtures of 1,2,3,4-byte characters.", "anchors": ["nixd/lspserver/src/SourceCode.cpp: iterateCodepoints, lspLength, measureUnits"]}
{"id": "C08", "title": "Incremental synchronisation keeps the server's copy equal to the client's", "statement": "After any sequence of open/change notifications, in which each change is either a full replacement or a range edit, the server's copy of the document is byte-for-byte the text the client has after performing the same edits on its own copy under LSP (UTF-16) semantics.", "quantifier": "all documents, all finite sequences of edits", "why_tests_cant": "A drift compounds over an unbounded editing history.", "anchors": ["nixd/lspserver/src/SourceCode.cpp: applyChange", "nixd/lib/Controller/TextDocumentSync.cpp: onDocumentDidChange"]}
{"id": "C09", "title": "A change that cannot be applied never leaves a half-edited document", "statement": "If any change of a notification is invalid (bad position, end before start, wrong length) the document is dropped as a whole - it is never left with only some of the changes applied - and other documents are unaffected.", "quantifier": "all documents, all change lists, all failure points", "why_tests_cant": "The failing change can be at any index of any list.", "anchors": ["nixd/lib/Controller/TextDocumentSync.cpp: onDocumentDidChange, removeDocument", "nixd/lspserver/src/SourceCode.cpp: applyChange, inferFinalNewline"]}
{"id": "C10", "title": "Document store versions are monotone and faithful", "statement": "The store returns the text and version of the last addition; when no version is supplied each re-addition yields a strictly larger version (numeric suffix order), and a numeric version survives encoding and decoding.", "quantifier": "all version strings, all sequences of add/remove operations", "why_tests_cant": "Unbounded histories and carries in decimal counters of any length.", "anchors": ["nixd/lspserver/src/DraftStore.cpp: increment, updateVersion, addDraft, encodeVersion, decodeVersion"]}
{"id": "C11", "title": "File paths survive the trip through URIs", "statement": "For every absolute POSIX path the URI that the server builds for it parses back to the same path.", "quantifier": "all absolute paths (byte strings without restriction)", "why_tests_cant": "Any byte may occur in a path: spaces, %, :, #, non-ASCII.", "anchors": ["nixd/lspserver/src/URI.cpp: create, parse, uriFromAbsolutePath, getAbsolutePath"]}
{"id": "C12", "title": "Percent-encoding is lossless and safe", "statement": "Decoding an encoded string returns the original string; an encoded string contains only unreserved characters and percent escapes; decoding is total and never reads past its input.", "quantifier": "all byte strings", "why_tests_cant": "All 256 byte values in every context, including a % near the end.", "anchors": ["nixd/lspserver/src/URI.cpp: percentEncode, percentDecode, shouldEscape"]}
{"id": "C13", "title": "Message framing is transparent to chunking", "statement": "Any sequence of messages written by the sender is read back by the receiver as the same sequence, however the transport splits the byte stream into reads; and a truncated stream never yields a spurious message.", "quantifier": "all message sequences, all ways to split the stream", "why_tests_cant": "The number of splittings is exponential and scheduling-dependent.", "anchors": ["nixd/lspserver/src/Connection.cpp: sendMessage, readStandardMessage, readLine"]}
{"id": "C14", "title": "Every request gets exactly one reply", "statement": "For any sequence of incoming messages, each request (message with a method and an id) is answered exactly once with the same id, notifications are never answered, and the server keeps serving afterwards unless asked to exit.", "quantifier": "all finite sequences of incoming messages", "why_tests_cant": "Ranges over histories; unknown methods and undecodable parameters are open-ended.", "anchors": ["nixd/lspserver/src/LSPServer.cpp: onCall, onNotify, dispatch", "nixd/lspserver/include/lspserver/LSPServer.h: addMethod", "nixd/lspserver/src/Connection.cpp: dispatch, loop"]}
{"id": "C15", "title": "Replies to server-initiated calls reach the right caller once", "statement": "Outgoing call identifiers are never reused; at every moment at most 101 callbacks are registered between calls and at most 100 after registration completes; each registered callback is run at most once, with the reply carrying its own identifier, or with an error when it is evicted as the oldest.", "quantifier": "all interleavings of outgoing calls and incoming replies", "why_tests_cant": "Unbounded histories, arbitrary reply order, duplicates and unknown ids.", "anchors": ["nixd/lspserver/src/LSPServer.cpp: bindReply, onReply", "nixd/lspserver/include/lspserver/LSPServer.h: MaxPendingCalls, PendingCalls, TopID"]}
{"id": "C16", "title": "A reply with a malformed identifier does not bring the server down", "statement": "A peer's reply with an identifier that is not one the server issued (string, null, out of range) is ignored.", "quantifier": "all JSON identifier values", "why_tests_cant": "The identifier is arbitrary JSON.", "anchors": ["nixd/lspserver/src/LSPServer.cpp: onReply"]}
{"id": "C17", "title": "Parsing terminates on every document", "statement": "Parsing any byte string terminates: the amount of work (nested calls and loop iterations) is bounded linearly in the document's length for every nesting path.", "quantifier": "all byte strings, including arbitrarily broken ones", "why_tests_cant": "Error recovery loops hang only for particular malformed inputs.", "anchors": ["libnixf/src/Parse/ParseSupport.cpp: consumeAsUnknown, expect", "libnixf/src/Parse/ParseAttrs.cpp: parseBinds", "libnixf/src/Parse/ParseLambda.cpp: parseFormals", "libnixf/src/Parse/ParseExpr.cpp", "libnixf/src/Parse/ParseOp.cpp"]}
{"id": "C18", "title": "Syntax-tree ranges are inside the document and nested", "statement": "Every node of the parsed tree has a range inside the document whose start is not after its end, with correct line/column; a node's range contains the ranges of its children.", "quantifier": "all byte strings, all nodes", "why_tests_cant": "Ranges are computed from mutable parser state on every error-recovery path.", "anchors": ["libnixf/src/Parse/Parse*.cpp", "libnixf/include/nixf/Basic/Nodes/*.h: children, range"]}
{"id": "C19", "title": "Parsing never aborts", "statement": "Parsing any document never violates an assertion, dereferences null or reads out of bounds.", "quantifier": "all byte strings", "why_tests_cant": "A single crashing document takes the language server down; every prefix of every file is sent while typing.", "anchors": ["libnixf/src/Parse/ParseStrings.cpp: parseExprPath", "libnixf/src/Sema/SemaActions.cpp: desugarInheritExpr", "libnixf/src/Parse/Lexer.h: consume"]}
{"id": "C20", "title": "Operators are grouped by the documented precedence and associativity", "statement": "In every parsed expression, an operator application is nested under another exactly as the documented precedence/associativity table says, and chains of non-associative operators are reported.", "quantifier": "all operator expressions", "why_tests_cant": "All combinations of operators at all depths.", "anchors": ["libnixf/src/Parse/ParseOp.cpp: getBP, getUnaryBP, parseExprOpBP", "libnixf/src/Parse/Parser.h: parseExprOp documentation"]}
{"id": "C21", "title": "String literals denote the string Nix gives them", "statement": "The text of a parsed string literal is the value Nix assigns to it: escapes are replaced by the escaped character, all other bytes are kept.", "quantifier": "all string literals", "why_tests_cant": "Arbitrary mixtures of escapes, $$, quotes and interpolations.", "anchors": ["libnixf/src/Parse/ParseStrings.cpp: parseStringParts", "libnixf/src/Basic/Nodes.cpp: mergeFragments"]}
{"id": "C22", "title": "Diagnostics point inside the document and their fixes apply cleanly", "statement": "Every diagnostic, note and fix edit produced by parsing and analysis has a range inside the document; edits of one fix do not overlap; no edit is a no-op (which would be an assertion failure).", "quantifier": "all byte strings, all diagnostics", "why_tests_cant": "Every error path of the parser produces its own ranges.", "anchors": ["libnixf/include/nixf/Basic/Diagnostic.h: TextEdit, Fix", "libnixf/src/Parse/*.cpp", "libnixf/src/Sema/*.cpp"]}
{"id": "C23", "title": "Attribute names in a set are unique, the first wins, and each collision is reported", "statement": "After semantic analysis an attribute set has one entry per static name; it is the first declaration in document order; a later declaration of the same name is either merged (both are set literals) or reported as duplicate with a note at the first declaration.", "quantifier": "all binding lists, of any length and path depth", "why_tests_cant": "Depends on the order and nesting of arbitrarily many bindings.", "anchors": ["libnixf/src/Sema/SemaActions.cpp: insertAttr, mergeAttrSets, selectOrCreate, lowerInheritName, dupAttr"]}
{"id": "C24", "title": "Nested attribute paths mean nested sets", "statement": "If no duplicate is reported, looking up path a.b.c in the analysed set finds exactly the value bound by a binding whose full path is a.b.c, for every mixture of dotted paths and nested literals; no binding is lost and none invented.", "quantifier": "all binding lists without reported duplicates", "why_tests_cant": "Unbounded nesting and interleaving.", "anchors": ["libnixf/src/Sema/SemaActions.cpp: addAttr, selectOrCreate, insertAttr, mergeAttrSets, lowerBinds"]}
{"id": "C25", "title": "inherit is lowered to the right variable or selection", "statement": "inherit a b; binds a and b to variables of those names looked up outside the set; inherit (e) a b; binds them to e.a and e.b; a name inherited twice or already bound is reported; a dynamic name is reported and not bound.", "quantifier": "all inherit clauses in all binding lists", "why_tests_cant": "All interleavings with other bindings.", "anchors": ["libnixf/src/Sema/SemaActions.cpp: lowerInherit, lowerInheritName, desugarInheritExpr"]}
{"id": "C26", "title": "Function formals are deduplicated and misuse is reported", "statement": "The formals map has one entry per formal name (the first occurrence); each later duplicate, each missing comma, each non-final ellipsis and each non-final empty formal gets exactly one diagnostic, and a well-formed formal list gets none.", "quantifier": "all formal lists", "why_tests_cant": "Any number and order of formals, commas and ellipses.", "anchors": ["libnixf/src/Sema/SemaActions.cpp: onFormals, checkFormalSep, checkFormalEllipsis, checkFormalEmpty, dedupFormal, onLambdaArg"]}
{"id": "C27", "title": "Variables resolve by lexical scoping", "statement": "A variable is resolved to the innermost enclosing let, rec set or function parameter that binds its name; only if there is none is it attributed to the enclosing `with` expressions; only if there is none of those is it undefined. An inherited (non-from) attribute's value is resolved outside the recursive set.", "quantifier": "all syntax trees", "why_tests_cant": "All nestings of scopes and shadowings.", "anchors": ["libnixf/src/Sema/VariableLookup.cpp: lookupVar, dfs, dfsAttrs"]}
{"id": "C28", "title": "Undefined-variable errors are exact", "statement": "An undefined-variable (or missing-prefix) error is reported for a variable occurrence if and only if no enclosing scope, builtin or `with` can provide it.", "quantifier": "all syntax trees", "why_tests_cant": "Needs both directions for all programs.", "anchors": ["libnixf/src/Sema/VariableLookup.cpp: lookupVar"]}
{"id": "C29", "title": "Unused-definition warnings are exact", "statement": "A let binding, formal or @-argument is reported unused if and only if no variable occurrence in the analysed program resolves to it; accepting the offered removal never removes a binding that some variable resolves to.", "quantifier": "all syntax trees", "why_tests_cant": "The use may be anywhere in an unbounded program.", "anchors": ["libnixf/src/Sema/VariableLookup.cpp: emitEnvLivenessWarning, dfs(ExprLambda), dfs(ExprLet)"]}
{"id": "C30", "title": "Useless-with and useless-rec hints are exact", "statement": "A `with` (a `rec`) is reported as useless if and only if no variable in its body may come from it (no variable resolves to one of its attributes); removing it then changes no variable's resolution.", "quantifier": "all syntax trees", "why_tests_cant": "Nested with/rec and shadowing in unbounded programs.", "anchors": ["libnixf/src/Sema/VariableLookup.cpp: dfs(ExprWith), dfs(ExprAttrs), EnvNode::isLive"]}
{"id": "C31", "title": "The candidate `with` scopes of a variable are complete and ordered", "statement": "For a variable attributed to `with`, the reported scopes are exactly the `with` expressions whose body encloses it, innermost first.", "quantifier": "all syntax trees", "why_tests_cant": "Any nesting depth.", "anchors": ["libnixf/include/nixf/Sema/VariableLookup.h: getWithScopes", "libnixf/src/Sema/VariableLookup.cpp: lookupVar"]}
{"id": "C32", "title": "Parent navigation is sound and terminates", "statement": "The parent recorded for a node is a node having it as a child; climbing from any node reaches the root; the search for an enclosing node of a kind returns the nearest enclosing one or nothing.", "quantifier": "all syntax trees, all nodes", "why_tests_cant": "Trees of any shape, including shared nodes.", "anchors": ["libnixf/src/Sema/ParentMap.cpp: dfs, query, upExpr, upTo"]}
{"id": "C33", "title": "Finding the node under the cursor is sound", "statement": "The node found for a range contains that range, is reached through nodes that contain it, and none of its children contains it; nothing is returned only if the root does not contain the range.", "quantifier": "all syntax trees, all ranges", "why_tests_cant": "Every position in every document.", "anchors": ["libnixf/include/nixf/Basic/Nodes/Basic.h: descend", "libnixf/include/nixf/Basic/Range.h: PositionRange::contains"]}
{"id": "C34", "title": "Definition and references are inverse", "statement": "A variable is listed among the references of a definition if and only if looking up the variable's definition yields that definition.", "quantifier": "all syntax trees, all variables and definitions", "why_tests_cant": "All programs.", "anchors": ["libnixf/src/Sema/VariableLookup.cpp: lookupVar", "nixd/lib/Controller/FindReferences.cpp", "nixd/lib/Controller/Definition.cpp: findDefinition"]}
{"id": "C35", "title": "Renaming edits every occurrence exactly once and nothing else", "statement": "The edits of a rename are pairwise disjoint; they cover the definition and precisely the occurrences that resolve to it; applying them with a fresh name yields a program in which the same occurrences resolve to the renamed definition.", "quantifier": "all documents, all rename positions, all fresh names", "why_tests_cant": "All programs and all scoping patterns (inherit, dotted let paths, formals, shadowing).", "anchors": ["nixd/lib/Controller/Rename.cpp", "nixd/lib/Controller/Definition.cpp"]}
{"id": "C36", "title": "A request at a position sees the character at that position", "statement": "For any document, the syntax node consulted for a request at an LSP (UTF-16) position is the one at that character of the document, including lines with non-ASCII characters before it.", "quantifier": "all documents, all positions", "why_tests_cant": "All mixtures of multi-byte characters.", "anchors": ["nixd/lib/Controller/Convert.cpp: toNixfPosition, toLSPPosition"]}
{"id": "C37", "title": "Semantic tokens decode to the classified ranges", "statement": "Decoding the delta-encoded token stream yields the classified tokens in document order with the same positions, lengths, types and modifiers; lengths are in the negotiated unit.", "quantifier": "all syntax trees", "why_tests_cant": "Any number and order of tokens across lines.", "anchors": ["nixd/lib/Controller/SemanticTokens.cpp: SemanticTokenBuilder::add, finish"]}
{"id": "C38", "title": "Document symbols are well nested", "statement": "Each symbol's selection range lies inside its full range, as LSP requires, and children are listed under the symbol that contains them.", "quantifier": "all documents", "why_tests_cant": "All attribute sets incl. dotted and inherited attributes.", "anchors": ["nixd/lib/Controller/DocumentSymbol.cpp"]}
{"id": "C39", "title": "Folding ranges are valid", "statement": "Every folding range lies inside the document, spans more than one line, and corresponds to a foldable construct; every multi-line foldable construct nested less than 256 levels deep is offered.", "quantifier": "all documents", "why_tests_cant": "All shapes and depths.", "anchors": ["nixd/lib/Controller/FoldingRange.cpp"]}
{"id": "C40", "title": "Completion lists are bounded, and flagged incomplete when cut", "statement": "A completion reply has at most 30 items, and whenever a matching candidate was left out the reply says it is incomplete.", "quantifier": "all candidate sets, all prefixes", "why_tests_cant": "Boundary at exactly 30 over all candidate sources.", "anchors": ["nixd/lib/Controller/Completion.cpp: addItem", "nixd/lib/Eval/AttrSetProvider.cpp: completeNames, onOptionComplete, onAttrPathComplete"]}
{"id": "C41", "title": "Scope completion proposes exactly the visible names", "statement": "The names proposed for a variable are those bound by an enclosing scope at that point (or builtin), start with the typed prefix, and each visible matching name is proposed unless the list is cut.", "quantifier": "all syntax trees, all positions, all prefixes", "why_tests_cant": "All nestings of scopes.", "anchors": ["nixd/lib/Controller/Completion.cpp: VLACompletionProvider"]}
{"id": "C42", "title": "Option lookup by attribute path is safe", "statement": "Computing the option path under the cursor and completing it never crashes and yields the path of attribute names from the outermost set to the cursor (without a leading `config`).", "quantifier": "all syntax trees, all cursor positions", "why_tests_cant": "All paths, including degenerate ones.", "anchors": ["nixd/lib/Controller/AST.cpp: findAttrPathForOptions, getValueAttrPath", "nixd/lib/Controller/Completion.cpp: completeAttrPath"]}
{"id": "C43", "title": "Escaped text reads back as itself", "statement": "A string escaped by the server and put between double quotes is tokenised and parsed as one string literal whose value is the original string.", "quantifier": "all byte strings", "why_tests_cant": "Arbitrary content: quotes, backslashes, ${, $$, newlines.", "anchors": ["nixd/lib/Controller/CodeActions/Utils.cpp: escapeNixString", "libnixf/src/Parse/ParseStrings.cpp", "libnixf/src/Parse/Lexer.cpp: lexString"]}
{"id": "C44", "title": "Quoted attribute keys read back as themselves", "statement": "An attribute key written by the server (bare if it is a valid identifier and not a keyword, quoted otherwise) parses back to a static attribute name equal to the key.", "quantifier": "all byte strings", "why_tests_cant": "Keywords, digits, empty names, arbitrary bytes.", "anchors": ["nixd/lib/Controller/CodeActions/Utils.cpp: quoteNixAttrKey, isValidNixIdentifier"]}
{"id": "C45", "title": "Converting JSON to Nix preserves the value", "statement": "The Nix text generated from a JSON value parses, without diagnostics, to an expression that denotes the same value.", "quantifier": "all JSON values within the documented limits", "why_tests_cant": "All values: nesting, strings, numbers, odd keys.", "anchors": ["nixd/lib/Controller/CodeActions/JsonToNix.cpp"]}
{"id": "C46", "title": "Quoting and unquoting an attribute name preserves it", "statement": "The quote/unquote-attribute-name action is offered only when the rewritten name denotes the same attribute, and the rewrite denotes the same attribute.", "quantifier": "all attribute names", "why_tests_cant": "All identifiers and keywords.", "anchors": ["nixd/lib/Controller/CodeActions/AttrName.cpp"]}
{"id": "C47", "title": "Flattening an attribute set preserves its contents", "statement": "The flatten-attributes rewrite denotes the same attribute tree: the same set of (full path, value text) pairs.", "quantifier": "all attribute sets for which the action is offered", "why_tests_cant": "All bindings, inherits, dynamic names, rec.", "anchors": ["nixd/lib/Controller/CodeActions/FlattenAttrs.cpp"]}
{"id": "C48", "title": "Packing dotted attributes preserves the set", "statement": "The pack-attributes rewrite denotes the same attribute tree and does not touch other bindings.", "quantifier": "all binding lists for which the action is offered", "why_tests_cant": "All orders and nestings of bindings.", "anchors": ["nixd/lib/Controller/CodeActions/PackAttrs.cpp"]}
{"id": "C49", "title": "Rewriting a string between quoting styles preserves its value", "statement": "Converting a string literal between \"...\" and ''...'' yields a literal with the same value and the same interpolations.", "quantifier": "all string literals", "why_tests_cant": "All contents, incl. trailing quotes, ${, indentation.", "anchors": ["nixd/lib/Controller/CodeActions/RewriteString.cpp"]}
{"id": "C50", "title": "Converting a binding to inherit preserves its meaning", "statement": "The rewrite of x = x; or x = e.x; to an inherit clause binds the same name to the same variable or selection.", "quantifier": "all programs and bindings for which the action is offered", "why_tests_cant": "Depends on the enclosing scope (rec, let).", "anchors": ["nixd/lib/Controller/CodeActions/ConvertToInherit.cpp"]}
{"id": "C51", "title": "Converting inherit to explicit bindings preserves its meaning", "statement": "The rewrite of an inherit clause to explicit bindings binds the same names to the same variables or selections.", "quantifier": "all programs and inherit clauses for which the action is offered", "why_tests_cant": "Depends on the enclosing scope and on the inherited-from expression.", "anchors": ["nixd/lib/Controller/CodeActions/InheritToBinding.cpp"]}
{"id": "C52", "title": "Converting with to let preserves resolution", "statement": "After with e; body is rewritten to let inherit (e) ...; in body, each variable of e and body resolves as before.", "quantifier": "all programs for which the action is offered", "why_tests_cant": "All shadowing patterns.", "anchors": ["nixd/lib/Controller/CodeActions/WithToLet.cpp"]}
{"id": "C53", "title": "Extracting an expression captures all its free variables", "statement": "The function written to the new file abstracts over exactly the variables of the expression that are bound outside it.", "quantifier": "all programs and selections", "why_tests_cant": "All scoping patterns.", "anchors": ["nixd/lib/Controller/CodeActions/ExtractToFile.cpp"]}
{"id": "C54", "title": "Adding a variable to the formals makes it defined", "statement": "After the add-to-formals action the variable resolves to the new formal of the nearest enclosing function with formals, and the formal list stays well-formed.", "quantifier": "all programs for which the action is offered", "why_tests_cant": "All formal-list layouts.", "anchors": ["nixd/lib/Controller/CodeActions/AddToFormals.cpp"]}
{"id": "C55", "title": "Suppressed diagnostics are hidden and all others are published", "statement": "The diagnostics published for a document are exactly those of its current text whose kind is not suppressed, each followed by its notes; unknown names in the suppression list have no effect.", "quantifier": "all diagnostics lists, all suppression lists", "why_tests_cant": "All subsets and lists.", "anchors": ["nixd/lib/Controller/Diagnostics.cpp: updateSuppressed, isSuppressed, publishDiagnostics"]}
{"id": "C56", "title": "Formatting cannot deadlock and returns the formatter's output", "statement": "Formatting a document of any size terminates if the formatter does, and the edit replaces the whole document by the formatter's output (no edit if unchanged).", "quantifier": "all document sizes, all schedules of the two processes", "why_tests_cant": "Depends on pipe capacity and interleaving.", "anchors": ["nixd/lib/Controller/Format.cpp", "nixd/lib/Support/ForkPiped.cpp: forkPiped"]}
{"id": "C57", "title": "A dead evaluator does not block requests", "statement": "A request that consults an evaluator process completes even if that process dies at any moment.", "quantifier": "all crash points and schedules", "why_tests_cant": "Crash timing cannot be enumerated by tests.", "anchors": ["nixd/lib/Controller/Completion.cpp", "nixd/lib/Controller/Hover.cpp: Ready.acquire", "nixd/lib/Controller/Definition.cpp: Ready.acquire", "nixd/lspserver/src/LSPServer.cpp: run, PendingCalls"]}
{"id": "C58", "title": "Evaluator protocol messages survive serialisation", "statement": "Every value sent between the language server and the evaluator (option descriptions, package descriptions, attribute-path info, completion requests) is read back unchanged.", "quantifier": "all protocol values", "why_tests_cant": "All combinations of present/absent fields and strings.", "anchors": ["nixd/lib/Protocol/AttrSet.cpp: toJSON, fromJSON"]}
{"id": "C59", "title": "Replies are computed from one consistent snapshot", "statement": "Every read-only request is answered from one state of the document (text, tree and analysis of the same version), whatever notifications are processed concurrently.", "quantifier": "all interleavings of notifications and requests on the worker pool", "why_tests_cant": "Race conditions cannot be settled by running tests.", "anchors": ["nixd/lib/Controller/TextDocumentSync.cpp", "nixd/lib/Controller/Support.cpp: actOnDocumentAdd, getTU", "nixd/include/nixd/Controller/NixTU.h"]}
{"id": "C60", "title": "Attribute and option selection follows the path", "statement": "Selecting a path in the evaluated value descends one name at a time; option selection also descends through submodules and attribute sets of submodules, and the description given for an option path is that option's; a missing step yields an error and never a wrong value.", "quantifier": "all value trees, all paths", "why_tests_cant": "All shapes of option types.", "anchors": ["libnixt/lib/Value.cpp: selectStrings, selectOptions, trySelectAttr"]}
{"id": "C61", "title": "Identifiers keep their source text", "statement": "Every identifier in the syntax tree has exactly the name written at its range in the document, and every expression's source text is the slice of its range.", "quantifier": "all byte strings, all nodes", "why_tests_cant": "Desugaring shares and moves nodes on many paths.", "anchors": ["libnixf/src/Parse/Parse*.cpp", "libnixf/src/Sema/SemaActions.cpp: desugarInheritExpr"]}
{"id": "C62", "title": "Diagnostic messages are fully instantiated", "statement": "Rendering a diagnostic or note never reads a missing argument and never leaves a placeholder unfilled: each is created with exactly as many arguments as its message has placeholders.", "quantifier": "all documents, all diagnostics", "why_tests_cant": "Every creation site on every path.", "anchors": ["libnixf/src/Basic/Diagnostic.cpp: simpleFormat", "libnixf/src/Basic/diagnostic.py", "libnixf/include/nixf/Basic/NoteKinds.inc"]}
{"id": "C63", "title": "A clean parse consumes the whole document", "statement": "If parsing reports no diagnostics then the returned tree is present and spans the document from its first token to its last: nothing but white space and comments is left over.", "quantifier": "all byte strings", "why_tests_cant": "Left-over text may follow any construct.", "anchors": ["libnixf/src/Parse/ParseSupport.cpp: Parser::parse"]}
{"id": "C64", "title": "Opening a document under any URI does not bring the server down", "statement": "Whatever URI a client opens a document under, the server either rejects the notification or publishes diagnostics for it; it never aborts.", "quantifier": "all URI strings", "why_tests_cant": "The set of URI texts is infinite and the failing ones have unusual shapes (drive letters, network roots).", "anchors": ["nixd/lspserver/src/Protocol.cpp: URIForFile::canonicalize, fromJSON", "nixd/lspserver/src/URI.cpp: FileSystemScheme", "nixd/lib/Controller/Diagnostics.cpp: publishDiagnostics"]}
{"id": "C65", "title": "Evaluator queries do not influence one another", "statement": "The evaluator's answer to a query depends on the evaluated value and the query only: no history of earlier queries (hover, completion, definition) changes a later answer.", "quantifier": "all values, all histories of queries, all queries", "why_tests_cant": "A stateful effect of one query on a later one needs a particular history; tests ask queries on fresh values.", "anchors": ["libnixt/lib/Value.cpp: selectOptions, getField", "nixd/lib/Eval/AttrSetProvider.cpp: onOptionInfo, onOptionComplete, onAttrPathInfo"]}
{"id": "C66", "title": "Tokens end where the language says", "statement": "A token is as long as possible: no keyword, operator or punctuation starting at the same place is longer, identifiers, keywords, numbers and URIs do not stop in the middle, literal text in a string stops only before a quote, an escape or an interpolation, and path pieces are maximal.", "quantifier": "all documents, all lexer modes and histories", "why_tests_cant": "Every pair of adjacent characters at every position can hide a wrong boundary.", "anchors": ["libnixf/src/Parse/Lexer.cpp: lex, lexString, lexIndString, lexPath"]}
{"id": "C67", "title": "The lexer reports exactly the lexical errors", "statement": "While reading a token the lexer reports an unterminated block comment, a float with a leading zero, and a float whose exponent has no digits, each exactly once with its exact range, arguments, note and fix, and nothing else.", "quantifier": "all documents, all lexer modes and histories", "why_tests_cant": "Both missing and spurious reports are possible on any text; comments and numbers nest in arbitrary surroundings.", "anchors": ["libnixf/src/Parse/Lexer.cpp: consumeComments, lexFloatExp, lexNumbers"]}
{"id": "C68", "title": "A document without errors is read as the grammar says", "statement": "If parsing reports no error, the tree is derived by the grammar of Nix from the tokens of the document in order: every token of the document, and nothing else, takes its place in the tree; only white space and comments are skipped.", "quantifier": "all documents", "why_tests_cant": "The grammar has unboundedly many documents; error recovery shares code with ordinary parsing, so a token can be dropped, duplicated or reordered silently in combinations no test enumerates.", "anchors": ["libnixf/src/Parse/Parse*.cpp", "libnixf/src/Parse/ParseSupport.cpp"]}
{"id": "C69", "title": "Hints about builtins are exact and their edits remove exactly the prefix", "statement": "The analysis reports a removable prefix exactly for `builtins.x` and for `inherit (builtins) x` in a `let`, where x is a builtin that can be written without prefix, and an unknown builtin exactly for `builtins.x` where x is neither a builtin nor a builtin constant. The fix deletes `builtins` and the dot (or the inherited name) and nothing else, and what remains means the same.", "quantifier": "all programs and builtin tables", "why_tests_cant": "The hint depends on the builtin table, the position in the tree and what the name means in its scope; tests try single expressions at top level.", "anchors": ["libnixf/src/Sema/VariableLookup.cpp:443-508", "libnixf/src/Sema/PrimOpLookup.cpp:5-17"]}
{"id": "C70", "title": "References are exactly the occurrences with the same meaning", "statement": "The answer to a references request lists exactly the places of the document that mean the same as the name under the cursor: those that refer to the same declaration, or that are looked up in the same `with`, and never an occurrence of an equally spelled but different variable.", "quantifier": "all programs, builtin tables and cursor positions", "why_tests_cant": "Whether two equal names mean the same depends on every binder between them; tests list references in a few small programs without shadowing.", "anchors": ["nixd/lib/Controller/FindReferences.cpp", "nixd/lib/Controller/Definition.cpp:28-130"]}
{"id": "C71", "title": "Formatting gives back the descriptors it takes", "statement": "After any number of format requests have been answered, the server has no more file descriptors open than before.", "quantifier": "all numbers of requests", "why_tests_cant": "Leaks show only after many requests, and tests run few.", "anchors": ["nixd/lib/Controller/Format.cpp", "nixd/lib/Support/ForkPiped.cpp: forkPiped"]}
{"id": "C72", "title": "Every node's range is exactly its text", "statement": "For a document without diagnostics, the range of an expression, attribute name, attribute path or binding begins where its first token begins and ends where its last token ends: cutting the document at the range gives exactly the text the node was read from.", "quantifier": "all documents", "why_tests_cant": "Refactorings and highlights cut the document at these ranges; comments and white space can stand between any two tokens, so one wrong end shows only in particular surroundings.", "anchors": ["libnixf/src/Parse/Parse*.cpp", "libnixf/include/nixf/Basic/Nodes/Basic.h: src", "libnixf/include/nixf/Basic/Range.h"]}
{"id": "C73", "title": "Nodes, parents and scopes of a parsed document are told apart", "statement": "In the tree of any document: different nodes have different addresses; a node is the child of one node, except that the keyword of a let expression is also a child of its set of bindings; everything the variable analysis looks at, including what it makes up for inherit clauses and dotted names, has one scope per address; declared names and `with` keywords are nodes of the document and never coincide.", "quantifier": "all documents, with or without errors", "why_tests_cant": "Every analysis keeps its results in maps keyed by node address and asserts nothing about sharing; a shared or reused node would give wrong answers only in the documents where the two places differ.", "anchors": ["libnixf/src/Parse/Parse*.cpp", "libnixf/src/Sema/SemaActions.cpp: desugarInheritExpr, addAttr, mergeAttrSets", "libnixf/src/Sema/VariableLookup.cpp: Results, EnvBinding", "libnixf/src/Sema/ParentMap.cpp"]}
{"id": "C74", "title": "The variable analysis completes on every document", "statement": "For every document, well formed or not, and every table of builtins, the variable analysis ends normally: it fails no assertion, reads no missing part of the tree, looks up no scope that is not there, and reaches no code marked unreachable.", "quantifier": "all documents with or without errors, all tables of builtins", "why_tests_cant": "The analysis dereferences optional parts of the tree and asserts facts the parser and the lowering of attribute sets are to guarantee; only particular combinations of errors, inherit clauses, dynamic names and duplicates would break one.", "anchors": ["libnixf/src/Sema/VariableLookup.cpp", "libnixf/src/Sema/PrimOpLookup.cpp:5-17"]}
{"id": "C75", "title": "Valid documents are accepted and read as what they say", "statement": "A document whose tokens are those of a well formed Nix expression, however it is laid out and commented, is parsed without any diagnostic, and the tree that results is the tree of that expression: every construct, operand, name, binding, formal and default at its place.", "quantifier": "all well formed expressions, all layouts", "why_tests_cant": "There are unboundedly many valid documents; lookahead, operator precedence and error recovery interact, so a valid combination of constructs can be rejected or reported although every construct is accepted alone.", "anchors": ["libnixf/src/Parse/Parse*.cpp", "libnixf/src/Sema/ParserActions.cpp"]}
{"id": "C76", "title": "Code actions never fail, and edit only text of the document", "statement": "Asking for code actions at any place of any document, however broken, never fails an assertion, reads outside the text or loops; and every edit that is offered has a range that lies in the document.", "quantifier": "all documents, with and without errors, all cursor positions, all analyses", "why_tests_cant": "Which nodes are present after error recovery, and what the pointers kept by the parent map and the variable analysis lead to, varies over unboundedly many broken documents.", "anchors": ["nixd/lib/Controller/CodeActions/*.cpp", "nixd/lib/Controller/CodeActions/Utils.cpp"]}
{"id": "C77", "title": "Highlights are the declaration and its occurrences", "statement": "Asking for highlights at a name marks its declaration as written and exactly its occurrences as read; for a `with` its keyword and the variables that may come from it; for a builtin its occurrences. The request never fails.", "quantifier": "all documents, with and without errors, all cursor positions", "why_tests_cant": "Which occurrences mean the same name depends on every binder around them; tests use a few programs.", "anchors": ["nixd/lib/Controller/DocumentHighlight.cpp"]}
{"id": "C78", "title": "Quick fixes are those of the visible diagnostics in the range", "statement": "A quick fix is offered exactly if a diagnostic that is shown and whose range meets the requested range has it; applying it edits only text of the document, with edits that do not overlap, and only the fix for an unused let binding is preferred.", "quantifier": "all documents, requested ranges and settings", "why_tests_cant": "The offer combines ranges, conversions, diagnostics of two analyses and settings; tests try one diagnostic at a time.", "anchors": ["nixd/lib/Controller/CodeAction.cpp:45-83", "lspserver/include/lspserver/Protocol.h:184-187"]}
{"id": "C79", "title": "Names in nixpkgs are found by convention", "statement": "A variable or selection is taken for an attribute path of nixpkgs exactly if that is what it means: `pkgs` and `lib` where the document does not declare them, names that a `with` gives, and selections from those; in every document looking for it ends normally.", "quantifier": "all documents, all variables and selections", "why_tests_cant": "Shadowing and nesting of `with` combine without bound; tests use a handful of idioms.", "anchors": ["nixd/lib/Controller/AST.cpp:108-271"]}
{"id": "C80", "title": "Version hints are shown exactly for the packages in the range", "statement": "Every inlay hint stands behind a variable in the requested range that is a package of a surrounding `with pkgs;` and shows its version, and every such variable has a hint.", "quantifier": "all documents, ranges and evaluator answers", "why_tests_cant": "Whether a variable is a package depends on all scopes around it.", "anchors": ["nixd/lib/Controller/InlayHints.cpp", "nixd/lib/Controller/AST.cpp:108-135"]}
{"id": "C81", "title": "Links are the literal paths and lead to the files they name", "statement": "The document links are exactly the paths without interpolation that name an existing file, each leading to the file that Nix would read: relative to the directory of the document, `default.nix` in a directory.", "quantifier": "all documents, file names and file systems", "why_tests_cant": "Paths nest in interpolations, and the file system decides; tests use one directory.", "anchors": ["nixd/lib/Controller/DocumentLink.cpp", "nixd/lib/Controller/PathResolve.h:28-94"]}
{"id": "C82", "title": "The documentation link leads to the page of the selected function", "statement": "The action to open Noogle is offered exactly on selections from `lib` with names that are written out, and different functions have different pages.", "quantifier": "all documents and cursor positions", "why_tests_cant": "The selected path is arbitrary text.", "anchors": ["nixd/lib/Controller/CodeActions/NoogleDoc.cpp"]}
{"id": "C83", "title": "The settings that the client sends take effect", "statement": "After the client replied with settings, the formatter, the suppressed diagnostics, the option sets and the expression for nixpkgs are exactly those the user gave, with the defaults for the rest; a reply that cannot be read changes nothing and harms nothing.", "quantifier": "all replies, all settings, all states", "why_tests_cant": "Settings arrive in any order and any number of times; tests send one.", "anchors": ["nixd/lib/Controller/Configuration.cpp", "nixd/include/nixd/Controller/Configuration.h"]}
{"id": "C84", "title": "Hover shows what is known", "statement": "Hover on a variable or selection that means an attribute of nixpkgs shows everything the evaluator told about it: name, homepage, descriptions, documentation, arity and arguments; hover on an option shows the option.", "quantifier": "all documents, cursor positions and evaluator answers", "why_tests_cant": "Each part of the answer may be missing, independently.", "anchors": ["nixd/lib/Controller/Hover.cpp"]}
{"id": "C85", "title": "Go to definition finds the definition", "statement": "On a variable, the request leads to its declaration or to the `with` that gives it, and to the place in nixpkgs of the package meant; on a selection to the place in nixpkgs; on a path to the file. It never ends the server.", "quantifier": "all documents, with and without errors, all cursor positions and evaluator answers", "why_tests_cant": "Answers of the evaluator, error recovery and scopes combine; an exception that escapes ends the server.", "anchors": ["nixd/lib/Controller/Definition.cpp"]}
{"id": "C86", "title": "Resolving a code action gives it back", "statement": "A client that asks the server to resolve a code action which the server sent gets the same action back with its title, kind, preference, edit and data; the browser is opened exactly if the data has an address.", "quantifier": "all code actions that the server can send, including edits with several files, annotations and file operations", "why_tests_cant": "The reader and the writer of the JSON form are separate pieces of code; a field lost for one kind of edit only shows for that kind.", "anchors": ["nixd/lib/Controller/CodeAction.cpp:126-150", "nixd/lspserver/src/Protocol.cpp"]}
{"id": "C87", "title": "Resolving a completion item keeps it and adds its documentation", "statement": "The reply to completionItem/resolve has the label, kind, edit and data of the item that was sent, the version of the package as detail and its descriptions as markdown; nothing else changes and no request ends the server.", "quantifier": "all packages, sets, prefixes, evaluator answers and clients", "why_tests_cant": "Depends on the answers of an evaluator, on optional fields and on whether the evaluator runs.", "anchors": ["nixd/lib/Controller/Completion.cpp:122-142", "nixd/lib/Controller/Completion.cpp:527-554", "nixd/lspserver/src/Protocol.cpp"]}
{"id": "C88", "title": "A conforming client's messages are understood", "statement": "Positions, renames, opened documents, changes and requests for code actions that follow the protocol are read as what they say, whatever further fields they have.", "quantifier": "all messages that conform to the protocol", "why_tests_cant": "The protocol has many optional fields and unions; tests send those of one client.", "anchors": ["nixd/lspserver/src/Protocol.cpp"]}
{"id": "C89", "title": "Folding ranges arrive as computed", "statement": "A client that reads the reply to foldingRange by the rules of the protocol sees the lines and columns that the server computed.", "quantifier": "all ranges and all line lengths", "why_tests_cant": "Fields are omitted for some values, and the protocol gives a missing field a meaning of its own.", "anchors": ["nixd/lspserver/src/Protocol.cpp", "nixd/lib/Controller/FoldingRange.cpp"]}
{"id": "C90", "title": "Accepting a completed option inserts the name and the value", "statement": "When the user accepts a completed option, the text `name = value;` is inserted, with the value as the default or example has it.", "quantifier": "all option names and values, clients with and without snippets", "why_tests_cant": "Values contain the characters that have a meaning in snippets.", "anchors": ["nixd/lib/Controller/Completion.cpp:186-214"]}
{"id": "C91", "title": "The linter prints exactly the reports", "statement": "nixf-tidy ends normally on every document and prints, as JSON, every report of the parser and, with --variable-lookup, of the variable analysis, with range, kind, severity, message, arguments, notes and fixes, such that a reader of the JSON recovers them exactly.", "quantifier": "all documents, options and tables of builtins", "why_tests_cant": "All kinds of reports with arbitrary texts from documents; conversion of nested structures.", "anchors": ["libnixf/tools/nixf-tidy.cpp", "libnixf/src/Basic/JSONDiagnostic.cpp"]}
{"id": "C92", "title": "The life cycle of the protocol is observed", "statement": "A shutdown request is answered with null; exit then ends the server with status 0, and with status 1 if there was no shutdown request; before initialize and after shutdown other requests are refused.", "quantifier": "all sequences of messages and all times at which handlers finish", "why_tests_cant": "All histories of messages.", "anchors": ["nixd/tools/nixd.cpp", "nixd/lib/Controller/LifeTime.cpp:203-207", "nixd/lspserver/src/LSPServer.cpp", "nixd/lspserver/src/Connection.cpp"]}
{"id": "C93", "title": "A quick fix does what its title says", "statement": "The edits of each quick fix do to the document what its title announces: a fix that inserts a text inserts that text, one that removes a token removes that token, a conversion keeps what is converted, and the rest of the document is read as before.", "quantifier": "all documents, all diagnostics of the parser and of the variable analysis, all their fixes", "why_tests_cant": "Each fix site is reached by many shapes of documents; tests cover one document per fix.", "anchors": ["libnixf/src/Parse/ParseSimple.cpp", "libnixf/src/Parse/ParseAttrs.cpp", "libnixf/src/Parse/ParseLambda.cpp", "libnixf/src/Parse/ParseExpr.cpp", "libnixf/src/Parse/ParseSupport.cpp", "libnixf/src/Sema/SemaActions.cpp", "libnixf/src/Sema/VariableLookup.cpp"]}
{"id": "C94", "title": "No variable escapes the analysis of names", "statement": "Every variable that is written in a document, wherever it stands (bindings, dynamic names, defaults of formals, merged sets, strings, inherit sources), is looked at by the analysis and has an answer: the declaration it means, a `with` it may come from, or undefined, which is reported at its place.", "quantifier": "all documents, all variables written in them, all tables of builtins", "why_tests_cant": "The parser moves bindings into merged and nested sets before the analysis walks them, so a variable can be lost on the way; tests look at the variables they expect.", "anchors": ["libnixf/src/Sema/SemaActions.cpp", "libnixf/src/Sema/VariableLookup.cpp", "libnixf/src/Parse/ParseAttrs.cpp", "libnixf/src/Parse/ParseLambda.cpp"]}
{"id": "C95", "title": "Every variable is coloured", "statement": "In the answer to textDocument/semanticTokens every variable that is written in the document on one line has a token: it starts where the variable starts, is as long as it, and its type and modifiers say what the analysis found (builtin, defined, from a with, unknown, true/false, null).", "quantifier": "all documents, all variables written in them, all results of the analysis", "why_tests_cant": "The tokens are collected from the merged and nested sets that the parser made, not from the text, and each kind of node is walked by a rule of its own; tests compare the tokens of a few documents.", "anchors": ["nixd/lib/Controller/SemanticTokens.cpp", "libnixf/src/Sema/SemaActions.cpp"]}
