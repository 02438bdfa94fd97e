{
 "claims": [
  {
   "property": "C01",
   "status": "partial",
   "theorems": [
    "C01_partial",
    "C01_refuted"
   ],
   "note": "False of the code: a document ending in a lone backslash inside a string (or ''\\ inside an indented string) advances past the end. Proved for all other states, with the exact condition."
  },
  {
   "property": "C02",
   "status": "proved",
   "theorems": [
    "C02_progress",
    "C02_terminates"
   ],
   "note": ""
  },
  {
   "property": "C03",
   "status": "proved",
   "theorems": [
    "C03_faithful",
    "C03_tiling"
   ],
   "note": ""
  },
  {
   "property": "C04",
   "status": "proved",
   "theorems": [
    "C04_line_column",
    "C04_cursor_unique"
   ],
   "note": ""
  },
  {
   "property": "C05",
   "status": "partial",
   "theorems": [
    "C05_partial",
    "C05_refuted"
   ],
   "note": "False of the code for |||> (one pipe token) and <a/> (slash before the bracket); proved for every other token."
  },
  {
   "property": "C06",
   "status": "partial",
   "theorems": [
    "C06_partial",
    "C06_in_bounds",
    "C06_refuted"
   ],
   "note": "False of the code on lines of 2^31 or more UTF-16 units (the column is truncated to int); proved for every other character boundary of every document. In-bounds holds for all byte strings."
  },
  {
   "property": "C07",
   "status": "partial",
   "theorems": [
    "C07_utf16",
    "C07_strict",
    "C07_errors",
    "C07_lenient",
    "C07_refuted"
   ],
   "note": "The UTF-16 counting, the strict and lenient conversions and the errors are characterised completely for columns below 2^31. Refuted part: LSP asks to clamp columns past the end of a line; edits with such columns are refused, and on CR LF lines the lenient conversion lands after the CR."
  },
  {
   "property": "C08",
   "status": "partial",
   "theorems": [
    "C08_partial",
    "C08_accepted",
    "C08_refuted"
   ],
   "note": "False of the code for texts with a lone CR (an LSP line ending the server does not know); proved for all histories over texts without one. C08_accepted holds for any client."
  },
  {
   "property": "C09",
   "status": "proved",
   "theorems": [
    "C09_atomic",
    "C09_rejected"
   ],
   "note": ""
  },
  {
   "property": "C10",
   "status": "partial",
   "theorems": [
    "C10_partial",
    "C10_last_addition",
    "C10_version_roundtrip",
    "C10_refuted"
   ],
   "note": "False of the code: incrementing a suffix that ends in 9 does not carry (DraftStore.cpp:46-58 never advances its iterator), so 9 becomes 1. Everything else is proved."
  },
  {
   "property": "C11",
   "status": "partial",
   "theorems": [
    "C11_partial",
    "C11_refuted"
   ],
   "note": "False of the code for paths like /c:/x (the slash is lost), paths with a backslash, and //name (assertion); C11_partial shows these are exactly the failing ones."
  },
  {
   "property": "C12",
   "status": "proved",
   "theorems": [
    "C12_lossless",
    "C12_safe",
    "C12_total"
   ],
   "note": ""
  },
  {
   "property": "C13",
   "status": "partial",
   "theorems": [
    "C13_no_spurious_partial",
    "C13_complete_partial",
    "C13_refuted"
   ],
   "note": "Proved for every way of splitting the stream and for streams cut off anywhere. False when the writer hangs up with messages still buffered (POLLHUP is tested before POLLIN) and when a body read is interrupted (the size_t result -1 moves the position back)."
  },
  {
   "property": "C14",
   "status": "partial",
   "theorems": [
    "C14_partial",
    "C14_at_most_once",
    "C14_requests_defined",
    "C14_refuted"
   ],
   "note": "False of the code: a request for an unknown method is not answered and ends the server, as does a message that is not JSON-RPC 2.0. Proved for all other sequences, with handlers replying in any order; that each handler calls its reply once is assumed."
  },
  {
   "property": "C15",
   "status": "partial",
   "theorems": [
    "C15_ids",
    "C15_bounded",
    "C15_once",
    "C15_right_reply_partial",
    "C15_evicted",
    "C15_completed",
    "C15_safe",
    "C15_delivered",
    "C15_refuted"
   ],
   "note": "Everything is proved except for reply identifiers below INT_MIN, which wrap around and can complete another call (C15_refuted)."
  },
  {
   "property": "C16",
   "status": "partial",
   "theorems": [
    "C16_partial",
    "C16_refuted"
   ],
   "note": "False of the code: non-integer or too large identifiers raise an uncaught exception; C16_partial shows exactly which."
  },
  {
   "property": "C17",
   "status": "proved",
   "theorems": [
    "C17_terminates",
    "C17_linear_depth"
   ],
   "note": "The recursion is modelled with a depth allowance; it is shown that 32*(length+2) is always enough and that more changes nothing."
  },
  {
   "property": "C18",
   "status": "partial",
   "theorems": [
    "C18_in_document",
    "C18_in_document_all",
    "C18_nested_partial",
    "C18_siblings_apart",
    "C18_refuted"
   ],
   "note": "All nodes lie in the document. False of the code: the attribute set of a let has the `let' keyword, which is outside its range, as a child; every other child is nested."
  },
  {
   "property": "C19",
   "status": "partial",
   "theorems": [
    "C19_partial",
    "C19_only_these_partial",
    "C19_refuted"
   ],
   "note": "False of the code: string ending in a backslash at the end of the document, paths like ./a${x}${y} and ./a~/b, inherit with a quoted or dynamic name. These three assertions are proved to be the only ones that can fail."
  },
  {
   "property": "C20",
   "status": "partial",
   "theorems": [
    "C20_partial",
    "C20_accepts_partial",
    "C20_nonassoc",
    "C20_refuted"
   ],
   "note": "For every document without errors, every operator node is grouped as the table says except the pairs of `misgrouped`, each of which is refuted with a witness; chains of non-associative operators are errors. Conversely, string literals joined by binary operators parse without diagnostics to the tree of the table, except for these pairs."
  },
  {
   "property": "C21",
   "status": "partial",
   "theorems": [
    "C21_partial",
    "C21_refuted"
   ],
   "note": "For every string node of a document without errors its contents are those of the literal; refuted for every escape in indented strings; indentation removal is not done by the parser and not claimed."
  },
  {
   "property": "C22",
   "status": "proved",
   "theorems": [
    "C22_parsing",
    "C22_analysis"
   ],
   "note": "C22_parsing: all diagnostics of lexer, parser and semantic actions. C22_analysis: all reports of the variable analysis, for every table of builtins."
  },
  {
   "property": "C23",
   "status": "proved",
   "theorems": [
    "C23_unique",
    "C23_first_wins",
    "C23_reported",
    "C23_only"
   ],
   "note": "For every set written in every parsed document, with no assumption on the tree. The duplicates reported for the document are exactly the clashing declarations of its sets, each with the later name and a note at an earlier one. A binding without a value (a syntax error) is not entered, so a later binding of that name is not a duplicate of it."
  },
  {
   "property": "C24",
   "status": "proved",
   "theorems": [
    "C24_sound",
    "C24_complete",
    "C24_dynamic",
    "C24_dynamic_nested"
   ],
   "note": "For every set of every parsed document, against declares_attr, the meaning of one declaration by itself. Attributes under a computed name have no static path: C24_dynamic and C24_dynamic_nested show that they are kept, in order and in the set the static part of their path leads to."
  },
  {
   "property": "C25",
   "status": "proved",
   "theorems": [
    "C25_lowered",
    "C25_already_bound",
    "C25_dynamic",
    "C25_only"
   ],
   "note": "For every set of every parsed document. Variables and selections as written; parse-time aborts on some inherit names are in C19_refuted."
  },
  {
   "property": "C26",
   "status": "proved",
   "theorems": [
    "C26_reports",
    "C26_names",
    "C26_argument",
    "C26_only"
   ],
   "note": "For every list of formals and every argument of every parsed document. The list of reports equals the list of misuses, in order, and the document has no other reports about formals."
  },
  {
   "property": "C27",
   "status": "proved",
   "theorems": [
    "C27_bound",
    "C27_prelude",
    "C27_with",
    "C27_undefined",
    "C27_one_declaration"
   ],
   "note": "For every tree without two nodes of the same identity. The scopes around an occurrence are defined over the tree alone in VlaSpec."
  },
  {
   "property": "C28",
   "status": "partial",
   "theorems": [
    "C28_undefined_partial",
    "C28_missing_prefix_partial",
    "C28_refuted"
   ],
   "note": "Exact for every occurrence the analysis reaches; the full claim is refuted: the expression of an inherit without names is never analysed."
  },
  {
   "property": "C29",
   "status": "partial",
   "theorems": [
    "C29_reported_partial",
    "C29_unused_is_reported",
    "C29_refuted"
   ],
   "note": "Exact relative to the occurrences the analysis reaches; refuted in full: let x = 1; in { inherit (x); } reports x and offers to delete it."
  },
  {
   "property": "C30",
   "status": "partial",
   "theorems": [
    "C30_with",
    "C30_with_removal",
    "C30_rec",
    "C30_rec_removal_partial",
    "C30_refuted"
   ],
   "note": "Both hints are exact and harmless, except that let { body = 1; } is told to remove its rec keyword and the fix deletes `let` (refuted)."
  },
  {
   "property": "C31",
   "status": "proved",
   "theorems": [
    "C31_scopes",
    "C31_none_when_bound"
   ],
   "note": ""
  },
  {
   "property": "C32",
   "status": "proved",
   "theorems": [
    "C32_total",
    "C32_parent",
    "C32_nearest",
    "C32_nearest_expression",
    "C32_one_way_up",
    "C32_root",
    "C32_two_ways_up"
   ],
   "note": "For every tree whose nodes have distinct identities. The word `let` has two parents in the code (C32_two_ways_up); for it the nearest node is that of one way up."
  },
  {
   "property": "C33",
   "status": "proved",
   "theorems": [
    "C33_descend"
   ],
   "note": ""
  },
  {
   "property": "C34",
   "status": "partial",
   "theorems": [
    "C34_use_of_definition",
    "C34_definition_of_use_partial",
    "C34_definition_of_syntax",
    "C34_refuted"
   ],
   "note": "Proved for all definitions but those of a with; refuted for nested with expressions."
  },
  {
   "property": "C35",
   "status": "partial",
   "theorems": [
    "C35_partial",
    "C35_offered",
    "C35_prepare",
    "C35_fresh",
    "C35_refuted"
   ],
   "note": "The edits are the declaration and exactly the occurrences that refer to it; a fresh new name keeps every meaning. False of the code in three ways (C35_refuted): duplicate edits for the source of `inherit (e) a b`, an attribute renamed in `{ inherit x; }`, an abort on `{ a = 1; inherit a; }`."
  },
  {
   "property": "C36",
   "status": "partial",
   "theorems": [
    "C36_partial",
    "C36_exact",
    "C36_refuted"
   ],
   "note": "False of the code: UTF-16 columns are compared with byte columns, so after a non-ASCII character on the line another node is consulted. Exact on the other positions."
  },
  {
   "property": "C37",
   "status": "partial",
   "theorems": [
    "C37_decodes",
    "C37_classified",
    "C37_partial",
    "C37_refuted"
   ],
   "note": "The stream decodes to the classified tokens in order. False of the code: lengths are in bytes, right exactly for ASCII tokens."
  },
  {
   "property": "C38",
   "status": "partial",
   "theorems": [
    "C38_selection",
    "C38_variables",
    "C38_refuted"
   ],
   "note": "Variables are struck out exactly when the analysis finds no definition. Selection ranges lie inside full ranges and the request never fails. False of the code: in { a.b = 1; } the child b lies outside its parent a."
  },
  {
   "property": "C39",
   "status": "partial",
   "theorems": [
    "C39_sound",
    "C39_partial",
    "C39_refuted"
   ],
   "note": "Every range is sound. False of the code: constructs inside formals' defaults or strings are not offered; all others down to 256 levels are."
  },
  {
   "property": "C40",
   "status": "partial",
   "theorems": [
    "C40_bounded",
    "C40_sound",
    "C40_partial",
    "C40_refuted"
   ],
   "note": "Bounded always; flagged for variables, attributes and for option sets with at most 30 matches. False of the code otherwise: the evaluator cuts options at 30 and nothing is flagged."
  },
  {
   "property": "C41",
   "status": "partial",
   "theorems": [
    "C41_sound",
    "C41_complete_partial",
    "C41_skipped",
    "C41_refuted"
   ],
   "note": "Sound for all; complete but for names beginning with two underscores, which the code never proposes. A variable the analysis skips gets the names of the nearest analysed node around it."
  },
  {
   "property": "C42",
   "status": "partial",
   "theorems": [
    "C42_path",
    "C42_name_partial",
    "C42_dot_partial",
    "C42_set_partial",
    "C42_query",
    "C42_refuted"
   ],
   "note": "The path found is the specified one for cursors on a name, on a dot and on a set or binding outside names and values, for sets not inside a computed name or an inherit. False of the code otherwise: it aborts with the cursor on a top-level `config`, and on a name of a set inside a computed name."
  },
  {
   "property": "C43",
   "status": "proved",
   "theorems": [
    "C43"
   ],
   "note": "For every byte string: the escaped text between double quotes parses, without diagnostics, to a string literal with that value."
  },
  {
   "property": "C44",
   "status": "partial",
   "theorems": [
    "C44_partial",
    "C44_refuted"
   ],
   "note": "Every non-empty key. Refuted for the empty key: it is written as \"\", which the parser takes for a dynamic name."
  },
  {
   "property": "C45",
   "status": "partial",
   "theorems": [
    "C45_partial",
    "C45_refuted"
   ],
   "note": "All JSON values except fractional numbers, the least int64, negative array elements and empty keys (the last three are refuted: `[ -1 ]` does not parse, -9223372036854775808 is rejected, C44_refuted)."
  },
  {
   "property": "C46",
   "status": "partial",
   "theorems": [
    "C46_partial",
    "C46_refuted"
   ],
   "note": "The rewritten name, as the name of a binding, is the same static name. Refuted in context: quoting a name in `{ inherit a; }` gives a document on which the parser aborts; unquoting in `.\"a\"or 1` merges two tokens."
  },
  {
   "property": "C47",
   "status": "partial",
   "theorems": [
    "C47_partial"
   ],
   "note": "For every binding of a document without diagnostics: the new text is read, by the grammar of C68 and whatever follows it, as bindings defining the same paths with the same value expressions in the same order."
  },
  {
   "property": "C48",
   "status": "partial",
   "theorems": [
    "C48_refuted",
    "C48_itself_refuted",
    "C48_rec_refuted",
    "C48_inherit_refuted"
   ],
   "note": "False: bindings standing between two siblings are deleted, a sibling with a single name is nested in itself, `rec` is dropped, `inherit (s) x` becomes x = x. Nothing positive is proved about packing."
  },
  {
   "property": "C49",
   "status": "partial",
   "theorems": [
    "C49_partial",
    "C49_escapes",
    "C49_refuted"
   ],
   "note": "Literals without interpolation. From indented to quoted: always, as the parser reads it back. From quoted to indented: by the lexical rules of Nix, for every text in which runs of quotes before the end or before a dollar and brace are even; as the parser reads it, for texts without quotes and dollars. Refuted: \"a'\" gives an unterminated literal, and leading spaces are lost to indentation removal."
  },
  {
   "property": "C50",
   "status": "partial",
   "theorems": [
    "C50_partial",
    "C50_refuted",
    "C50_path_refuted",
    "C50_crash_refuted"
   ],
   "note": "Proved for x = e.x, and for x = x outside recursive sets, if the source of a selection with several names can be followed by a dot. False otherwise: recursive sets, selections from paths; and true = true gives an inherit clause on which nixd crashes."
  },
  {
   "property": "C51",
   "status": "partial",
   "theorems": [
    "C51_partial",
    "C51_refuted",
    "C51_call_refuted",
    "C51_rec_refuted",
    "C51_name_refuted"
   ],
   "note": "Proved for identifiers inherited from an expression that can be followed by a dot, or from the scope of a non-recursive set. False for operators, calls, recursive sets and quoted names."
  },
  {
   "property": "C52",
   "status": "partial",
   "theorems": [
    "C52_partial",
    "C52_refuted"
   ],
   "note": "Text of the rewrite, the names introduced, and what each occurrence refers to afterwards in terms of scopes. False of the code: the new bindings can capture a variable of the source expression, and a fallback to an outer `with` is lost."
  },
  {
   "property": "C53",
   "status": "partial",
   "theorems": [
    "C53_partial",
    "C53_refuted"
   ],
   "note": "Every variable node of the expression that refers outside is a parameter, and nothing else is. False of the code: variables of `inherit` clauses are not collected."
  },
  {
   "property": "C54",
   "status": "partial",
   "theorems": [
    "C54_partial",
    "C54_refuted"
   ],
   "note": "Offered exactly as specified, and the new list of formals is the old one with the name added. False of the code: after a trailing comma the result does not parse."
  },
  {
   "property": "C55",
   "status": "proved",
   "theorems": [
    "C55_published",
    "C55_published_any",
    "C55_unknown"
   ],
   "note": ""
  },
  {
   "property": "C56",
   "status": "partial",
   "theorems": [
    "C56_partial",
    "C56_no_answer",
    "C56_refuted",
    "C56_two_requests_refuted",
    "C56_evaluator_refuted",
    "C56_unread_refuted"
   ],
   "note": "Proved for every formatter whose output fits in the pipes and that reads its input, for one request at a time, under all schedules. False otherwise: output larger than the pipe hangs, concurrent forks inherit the pipe ends and hang, a formatter that leaves input unread kills the server."
  },
  {
   "property": "C57",
   "status": "partial",
   "theorems": [
    "C57_partial",
    "C57_stuck",
    "C57_refuted"
   ],
   "note": "Proved while the evaluator lives. False when it dies: pending calls are never completed, replies already sent are dropped, and the next call is a write to a broken pipe."
  },
  {
   "property": "C58",
   "status": "partial",
   "theorems": [
    "C58_partial",
    "C58_texts",
    "C58_refuted"
   ],
   "note": "Requests and replies made of Unicode texts and of places whose path survives the URI conversion are read back unchanged, at the level of JSON values. False of the code otherwise: a string that is not UTF-8 cannot be sent, and a place with an empty path makes the reply unreadable."
  },
  {
   "property": "C59",
   "status": "partial",
   "theorems": [
    "C59_snapshot",
    "C59_format_refuted",
    "C59_format_unopened_refuted"
   ],
   "note": "Proved for all requests that take a unit with getTU, in all interleavings. False for formatting, which keeps a bare reference into the store and dereferences the draft of a file that is not open."
  },
  {
   "property": "C60",
   "status": "partial",
   "theorems": [
    "C60_attributes",
    "C60_options",
    "C60_missing",
    "C60_described",
    "C60_refuted"
   ],
   "note": "Selection agrees with the specification on all values and paths. The description clause is false of the code: for an option whose type is a submodule the description is lost."
  },
  {
   "property": "C61",
   "status": "proved",
   "theorems": [
    "C61_identifiers",
    "C61_source"
   ],
   "note": ""
  },
  {
   "property": "C62",
   "status": "proved",
   "theorems": [
    "C62_instantiated",
    "C62_analysis"
   ],
   "note": "C62_instantiated: the diagnostics of lexer, parser and semantic actions. C62_analysis: those of the variable analysis."
  },
  {
   "property": "C63",
   "status": "partial",
   "theorems": [
    "C63_partial",
    "C63_refuted"
   ],
   "note": "False of the code for a document with no token (no tree, no diagnostic); proved for all others."
  },
  {
   "property": "C64",
   "status": "partial",
   "theorems": [
    "C64_partial",
    "C64_absolute",
    "C64_refuted"
   ],
   "note": "False of the code: file:///c:/x.nix aborts in URIForFile::canonicalize. Proved for every URI whose path starts with a slash and is not //name."
  },
  {
   "property": "C65",
   "status": "partial",
   "theorems": [
    "C65_partial",
    "C65_refuted"
   ],
   "note": "Proved for values without submodules. False of the code: a query inside a submodule writes into the parent's type, so a later completion answers differently."
  },
  {
   "property": "C66",
   "status": "proved",
   "theorems": [
    "C66"
   ],
   "note": "For every token request in every history of requests; 'documented' is the list of keywords, operators and punctuation of LexSpec."
  },
  {
   "property": "C67",
   "status": "proved",
   "theorems": [
    "C67"
   ],
   "note": "New diagnostics are exactly the lexical_error ones, without duplicates, for every history."
  },
  {
   "property": "C68",
   "status": "partial",
   "theorems": [
    "C68_partial",
    "C68_refuted"
   ],
   "note": "For every document without error diagnostics. The grammar is that of Nix plus the productions refuted in C68_refuted (`e ?`, leading comma in formals, `${` as text in a path), C20_refuted and C21_refuted. The converse, acceptance of every document of the grammar, is not claimed."
  },
  {
   "property": "C69",
   "status": "partial",
   "theorems": [
    "C69_removable",
    "C69_unknown",
    "C69_refuted"
   ],
   "note": "Reports and edits are exact over the analysed part of the tree. That the remaining name means the same is false of the code: the hint is given for builtins.map where a let defines map (C69_refuted)."
  },
  {
   "property": "C70",
   "status": "proved",
   "theorems": [
    "C70",
    "C70_once_refuted"
   ],
   "note": "For every document. Each occurrence is listed, but not always once (C70_once_refuted)."
  },
  {
   "property": "C71",
   "status": "partial",
   "theorems": [
    "C71_refuted"
   ],
   "note": "False: two pipe ends stay open after every request."
  },
  {
   "property": "C72",
   "status": "partial",
   "theorems": [
    "C72_partial",
    "C72_bindings_partial"
   ],
   "note": "For every document without diagnostics and every node of the derivation except operator expressions that are operands of other operators. The grammar is the one of C68_partial."
  },
  {
   "property": "C73",
   "status": "proved",
   "theorems": [
    "C73_identities",
    "C73_one_parent",
    "C73_one_scope",
    "C73_declared",
    "C73_with"
   ],
   "note": "For every document that has a tree. The theorems of C27, C30 to C32, C34, C35, C41, C42, C52 to C54 and C70 use it instead of assuming it."
  },
  {
   "property": "C74",
   "status": "partial",
   "theorems": [
    "C74_partial",
    "C74_refuted"
   ],
   "note": "Proved for every parsed document and every table of distinct builtins none of which is internal. False with an internal builtin: a document that uses its name fails an assertion."
  },
  {
   "property": "C75",
   "status": "partial",
   "theorems": [
    "C75_partial",
    "C75_refuted"
   ],
   "note": "Proved for a large part of the language: variables, numbers, parentheses, lists, sets, selections, calls, all operators, if, assert, with, let, lambdas. Missing: strings, paths, URIs, interpolations, nested sets made of several bindings, old let, redundant parentheses. False for applications of sets and numbers."
  },
  {
   "property": "C76",
   "status": "proved",
   "theorems": [
    "C76_bindings",
    "C76_strings",
    "C76_analysis"
   ],
   "note": "For all modelled actions: inherit conversions, flatten, pack, string and attribute name rewriting, with to let, extract to file, add to formals. For a formal added to an empty list the place is the one right behind the left edge of the list. The conversion from JSON (C57) works on the selected text, not on nodes; the Noogle link has no edit."
  },
  {
   "property": "C77",
   "status": "partial",
   "theorems": [
    "C77_partial",
    "C77_refuted"
   ],
   "note": "Proved whenever the request is answered. False: with the cursor on an inherited name that repeats an attribute an assertion fails."
  },
  {
   "property": "C78",
   "status": "partial",
   "theorems": [
    "C78_partial",
    "C78_suppressed_refuted"
   ],
   "note": "Proved for which fixes are offered and that their edits apply cleanly. False that only fixes of shown diagnostics are offered: those of suppressed ones are, too."
  },
  {
   "property": "C79",
   "status": "partial",
   "theorems": [
    "C79_variable",
    "C79_selection",
    "C79_shadow_refuted",
    "C79_with_refuted"
   ],
   "note": "Proved for all variables and selections against the convention that the code follows (outermost `with`, `pkgs` and `lib` whatever they are). False against the meaning of Nix: shadowed `pkgs`, nested `with`."
  },
  {
   "property": "C80",
   "status": "partial",
   "theorems": [
    "C80_partial",
    "C80_refuted",
    "C80_client_refuted"
   ],
   "note": "Proved with an evaluator. False that only packages have hints: a declared variable below `with pkgs;` has one; and without an evaluator a null pointer is followed."
  },
  {
   "property": "C81",
   "status": "partial",
   "theorems": [
    "C81_partial",
    "C81_refuted",
    "C81_home_refuted"
   ],
   "note": "Proved for paths not inside other paths. False for paths inside the interpolation of a path, and for paths in the home directory."
  },
  {
   "property": "C82",
   "status": "partial",
   "theorems": [
    "C82_offered",
    "C82_address_partial",
    "C82_refuted"
   ],
   "note": "When the action is offered is proved; pages are told apart for names without a slash, and not for names with one."
  },
  {
   "property": "C83",
   "status": "partial",
   "theorems": [
    "C83_partial",
    "C83_bad_reply",
    "C83_empty_refuted",
    "C83_removed_refuted"
   ],
   "note": "Proved for settings that are given. False for an empty array (undefined behaviour) and for settings that are removed again."
  },
  {
   "property": "C84",
   "status": "partial",
   "theorems": [
    "C84_shown",
    "C84_text_partial",
    "C84_long_refuted",
    "C84_option_refuted"
   ],
   "note": "Proved for variables, selections and all fields but one. False for a long description without a description, and for options when there is no evaluator for nixpkgs."
  },
  {
   "property": "C85",
   "status": "partial",
   "theorems": [
    "C85_variable",
    "C85_selection_partial",
    "C85_path",
    "C85_duplicate_refuted",
    "C85_position_refuted",
    "C85_client_refuted",
    "C85_line_refuted"
   ],
   "note": "Proved for variables, paths, and selections whose position can be read. False: three ways to end the server, and the line in nixpkgs is off by one. Not covered: options, names of inherit clauses."
  },
  {
   "property": "C86",
   "status": "partial",
   "theorems": [
    "C86_partial",
    "C86_refuted"
   ],
   "note": "Proved for actions whose edits change text only (the server attaches neither diagnostics nor commands). False for its own action to extract an expression to a file: the edit is lost."
  },
  {
   "property": "C87",
   "status": "partial",
   "theorems": [
    "C87_partial",
    "C87_kept_partial",
    "C87_refuted",
    "C87_documentation_refuted",
    "C87_kind_refuted",
    "C87_client_refuted"
   ],
   "note": "The fields named are kept and added. False: an invalid insertTextFormat is added; three ways to end the server."
  },
  {
   "property": "C88",
   "status": "partial",
   "theorems": [
    "C88_partial",
    "C88_refuted"
   ],
   "note": "Proved for the five kinds of message when the codes of diagnostics are strings. False for codes that are numbers."
  },
  {
   "property": "C89",
   "status": "partial",
   "theorems": [
    "C89_partial",
    "C89_refuted"
   ],
   "note": "Proved for columns other than 0; false for column 0, which is omitted and read as the end of the line."
  },
  {
   "property": "C90",
   "status": "partial",
   "theorems": [
    "C90_partial",
    "C90_refuted"
   ],
   "note": "Proved for all values and for names without dollar signs and backslashes; false for others, which are not escaped."
  },
  {
   "property": "C91",
   "status": "partial",
   "theorems": [
    "C91_partial",
    "C91_unambiguous",
    "C91_refuted"
   ],
   "note": "Proved if the texts in the reports are Unicode; false for a document in another encoding, on which the linter ends with an exception. Not proved: that reports on Unicode documents contain Unicode only."
  },
  {
   "property": "C92",
   "status": "partial",
   "theorems": [
    "C92_partial",
    "C92_refuted",
    "C92_after_refuted",
    "C92_before_refuted"
   ],
   "note": "The regular end is proved from every state. False: the status without shutdown, and requests before initialize and after shutdown, which are answered."
  },
  {
   "property": "C93",
   "status": "partial",
   "theorems": [
    "C93_parser_partial",
    "C93_analysis_partial",
    "C93_at_refuted",
    "C93_formals_refuted",
    "C93_parens_refuted",
    "C93_let_refuted",
    "C93_body_refuted",
    "C93_inherit_refuted"
   ],
   "note": "What every fix inserts, removes and replaces is proved to agree with its title and to act at the place the diagnostic marks, for all documents. False: the fix for an extra @ removes the name, dummy formals are inserted before the @, removing parentheses or braces can join words, body.x is taken for body, and the source of an empty inherit is left behind."
  },
  {
   "property": "C94",
   "status": "partial",
   "theorems": [
    "C94_visited_partial",
    "C94_answered_partial",
    "C94_refuted"
   ],
   "note": "Proved for all documents without errors in which every inherit (e) lists a name. False without these conditions: the source of an empty inherit, the second value of a name bound twice and the defaults of a function without body are never looked at."
  },
  {
   "property": "C95",
   "status": "partial",
   "theorems": [
    "C95_coloured_partial",
    "C95_refuted"
   ],
   "note": "Proved for all documents without errors and all variables outside of interpolated strings, parameters, inherit and dynamic names. False there: variables in strings, in defaults of formals, in the source of inherit, in dynamic names of bindings and of selections get no token."
  }
 ]
}