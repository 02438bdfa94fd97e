(** Diagnostics: libnixf/include/nixf/Basic/Diagnostic.h, libnixf/src/Basic/{Diagnostic.cpp,diagnostic.py},
    libnixf/include/nixf/Basic/NoteKinds.inc. *)
From Verif Require Import Base.

(** diagnostic.py:17-273 (kinds that some code creates, plus the ones never created) *)
Inductive dkind :=
| DK_UnterminatedBComment | DK_FloatNoExp | DK_FloatLeadingZero | DK_Expected | DK_IntTooBig
| DK_RedundantParen | DK_AttrPathExtraDot | DK_SelectExtraDot | DK_UnexpectedBetween | DK_UnexpectedText
| DK_MissingSepFormals | DK_LambdaArgExtraAt | DK_OperatorNotAssociative | DK_KeywordOrIsNotBinaryOp
| DK_LetDynamic | DK_EmptyInherit | DK_OrIdentifier | DK_DeprecatedURL | DK_DeprecatedLet
| DK_LetAttrsMissingBody | DK_PathTrailingSlash | DK_MergeDiffRec | DK_DuplicatedAttrName
| DK_DynamicInherit | DK_EmptyFormal | DK_FormalMissingComma | DK_FormalExtraEllipsis
| DK_FormalMisplacedEllipsis | DK_DuplicatedFormal | DK_DuplicatedFormalToArg | DK_UndefinedVariable
| DK_UnusedDefLet | DK_UnusedDefLambdaNoArg_Formal | DK_UnusedDefLambdaWithArg_Formal
| DK_UnusedDefLambdaWithArg_Arg | DK_ExtraRecursive | DK_ExtraWith | DK_PrimOpUnknown
| DK_PrimOpRemovablePrefix | DK_PrimOpNeedsPrefix | DK_PrimOpOverridden | DK_ConstantOverridden.

(** NoteKinds.inc *)
Inductive nkind :=
| NK_PrevDeclared | NK_DuplicateFormal | NK_ThisRecursive | NK_RecConsider | NK_BCommentBegin | NK_ToMachThis.

(** Diagnostic.h:74-77 *)
Inductive dtag := Faded | Striked.

(** Diagnostic.h:25-55 TextEdit.  The constructor's assertion (line 32) is modelled by [mkEdit] below. *)
Record tedit := TEdit { e_range : range; e_text : bytes }.

(** Diagnostic.h:30-33 : asserts that the edit is not a no-op *)
Definition edit_ok (r : range) (t : bytes) : bool :=
  negb (cur_eqb (lcur r) (rcur r)) || negb (bytes_eqb t []).
Definition mkEdit (r : range) (t : bytes) : res tedit :=
  if edit_ok r t then Ok (TEdit r t) else Crash "TextEdit: empty edit".
(** Diagnostic.h:35-37 *)
Definition mkInsertion (c : cursor) (t : bytes) : res tedit := mkEdit (point c) t.
(** Diagnostic.h:39-41 *)
Definition mkRemoval (r : range) : res tedit := mkEdit r [].

(** Diagnostic.h:57-72 Fix *)
Record fix_ := Fix_ { f_msg : bytes; f_edits : list tedit }.

(** Diagnostic.h:114-143 Note *)
Record note := Note_ { n_kind : nkind; n_range : range; n_args : list bytes }.

(** Diagnostic.h:147-214 Diagnostic *)
Record diag := Diag_ {
  d_kind : dkind; d_range : range; d_args : list bytes;
  d_notes : list note; d_fixes : list fix_; d_tags : list dtag }.

Definition diag0 (k : dkind) (r : range) : diag := Diag_ k r [] [] [] [].
(** PartialDiagnostic::operator<< Diagnostic.h:85-88 *)
Definition d_arg (a : bytes) (d : diag) : diag :=
  Diag_ (d_kind d) (d_range d) (d_args d ++ [a]) (d_notes d) (d_fixes d) (d_tags d).
(** Diagnostic::note Diagnostic.h:197-199 *)
Definition d_note (n : note) (d : diag) : diag :=
  Diag_ (d_kind d) (d_range d) (d_args d) (d_notes d ++ [n]) (d_fixes d) (d_tags d).
(** Diagnostic::fix Diagnostic.h:203-205 followed by Fix::edit 65-68 *)
Definition d_fix (f : fix_) (d : diag) : diag :=
  Diag_ (d_kind d) (d_range d) (d_args d) (d_notes d) (d_fixes d ++ [f]) (d_tags d).
(** PartialDiagnostic::tag Diagnostic.h:96 *)
Definition d_tag (t : dtag) (d : diag) : diag :=
  Diag_ (d_kind d) (d_range d) (d_args d) (d_notes d) (d_fixes d) (d_tags d ++ [t]).

(** Severity: Diagnostic.h:154-168 *)
Inductive severity := DS_Fatal | DS_Error | DS_Warning | DS_Info | DS_Hint.

(** diagnostic.py: severity (generated into Diagnostic.cpp by Diagnostic.cpp.py:59-80) *)
Definition severity_of (k : dkind) : severity :=
  match k with
  | DK_UnterminatedBComment => DS_Error
  | DK_FloatNoExp => DS_Fatal
  | DK_FloatLeadingZero => DS_Warning
  | DK_Expected => DS_Error
  | DK_IntTooBig => DS_Error
  | DK_RedundantParen => DS_Warning
  | DK_AttrPathExtraDot => DS_Error
  | DK_SelectExtraDot => DS_Error
  | DK_UnexpectedBetween => DS_Error
  | DK_UnexpectedText => DS_Error
  | DK_MissingSepFormals => DS_Error
  | DK_LambdaArgExtraAt => DS_Error
  | DK_OperatorNotAssociative => DS_Error
  | DK_KeywordOrIsNotBinaryOp => DS_Error
  | DK_LetDynamic => DS_Error
  | DK_EmptyInherit => DS_Warning
  | DK_OrIdentifier => DS_Warning
  | DK_DeprecatedURL => DS_Warning
  | DK_DeprecatedLet => DS_Warning
  | DK_LetAttrsMissingBody => DS_Error
  | DK_PathTrailingSlash => DS_Fatal
  | DK_MergeDiffRec => DS_Warning
  | DK_DuplicatedAttrName => DS_Error
  | DK_DynamicInherit => DS_Error
  | DK_EmptyFormal => DS_Error
  | DK_FormalMissingComma => DS_Error
  | DK_FormalExtraEllipsis => DS_Error
  | DK_FormalMisplacedEllipsis => DS_Error
  | DK_DuplicatedFormal => DS_Error
  | DK_DuplicatedFormalToArg => DS_Error
  | DK_UndefinedVariable => DS_Error
  | DK_UnusedDefLet => DS_Warning
  | DK_UnusedDefLambdaNoArg_Formal => DS_Warning
  | DK_UnusedDefLambdaWithArg_Formal => DS_Hint
  | DK_UnusedDefLambdaWithArg_Arg => DS_Warning
  | DK_ExtraRecursive => DS_Warning
  | DK_ExtraWith => DS_Warning
  | DK_PrimOpUnknown => DS_Error
  | DK_PrimOpRemovablePrefix => DS_Warning
  | DK_PrimOpNeedsPrefix => DS_Error
  | DK_PrimOpOverridden => DS_Warning
  | DK_ConstantOverridden => DS_Warning
  end.

(** diagnostic.py: message *)
Definition dmessage (k : dkind) : bytes :=
  match k with
  | DK_UnterminatedBComment => b "unterminated /* comment"
  | DK_FloatNoExp => b "float point has trailing `{}` but has no exponential part"
  | DK_FloatLeadingZero => b "float begins with extra zeros `{}` is nixf extension"
  | DK_Expected => b "expected {}"
  | DK_IntTooBig => b "this integer is too big for nix interpreter"
  | DK_RedundantParen => b "redundant parentheses"
  | DK_AttrPathExtraDot => b "extra `.` at the end of attrpath"
  | DK_SelectExtraDot => b "extra `.` after expression, but missing attrpath"
  | DK_UnexpectedBetween => b "unexpected {} between {} and {}"
  | DK_UnexpectedText => b "unexpected text"
  | DK_MissingSepFormals => b "missing seperator `,` between two lambda formals"
  | DK_LambdaArgExtraAt => b "extra `@` for lambda arg"
  | DK_OperatorNotAssociative => b "operator is non-associative"
  | DK_KeywordOrIsNotBinaryOp => b "'or' keyword is not a binary operator"
  | DK_LetDynamic => b "dynamic attributes are not allowed in let ... in ... expression"
  | DK_EmptyInherit => b "empty inherit expression"
  | DK_OrIdentifier => b "keyword `or` used as an identifier"
  | DK_DeprecatedURL => b "URL literal is deprecated"
  | DK_DeprecatedLet => b "using deprecated `let' syntactic sugar `let {{..., body = ...}}' -> (rec {{..., body = ...}}).body'"
  | DK_LetAttrsMissingBody => b "`let {{ ... }}` expression requires a `body` attribute"
  | DK_PathTrailingSlash => b "path has a trailing slash"
  | DK_MergeDiffRec => b "merging two attributes with different `rec` modifiers, the latter will be implicitly ignored"
  | DK_DuplicatedAttrName => b "duplicated attrname `{}`"
  | DK_DynamicInherit => b "dynamic attributes are not allowed in inherit"
  | DK_EmptyFormal => b "empty formal"
  | DK_FormalMissingComma => b "missing `,` for lambda formal"
  | DK_FormalExtraEllipsis => b "extra `...` for lambda formal"
  | DK_FormalMisplacedEllipsis => b "misplaced `...` for lambda formal"
  | DK_DuplicatedFormal => b "duplicated function formal"
  | DK_DuplicatedFormalToArg => b "function argument duplicated to a function formal"
  | DK_UndefinedVariable => b "undefined variable `{}`"
  | DK_UnusedDefLet => b "definition `{}` in let-expression is not used"
  | DK_UnusedDefLambdaNoArg_Formal => b "attribute `{}` of argument is not used"
  | DK_UnusedDefLambdaWithArg_Formal => b "attribute `{}` of `@`-pattern argument is not used, but may be referenced from the argument"
  | DK_UnusedDefLambdaWithArg_Arg => b "argument `{}` in `@`-pattern is not used"
  | DK_ExtraRecursive => b "attrset is not necessary to be `rec`ursive"
  | DK_ExtraWith => b "unused `with` expression"
  | DK_PrimOpUnknown => b "unknown builtin `{}`"
  | DK_PrimOpRemovablePrefix => b "this is a prelude builtin, the `builtins.` prefix can be removed"
  | DK_PrimOpNeedsPrefix => b "this is not a prelude builtin, the `builtins.` prefix is required"
  | DK_PrimOpOverridden => b "overriding a builtin name `{}` is discouraged, rename it to avoid confusion"
  | DK_ConstantOverridden => b "overriding a builtin name `{}` is discouraged, rename it to avoid confusion"
  end.

(** diagnostic.py: sname *)
Definition sname_of (k : dkind) : bytes :=
  match k with
  | DK_UnterminatedBComment => b "lex-unterminated-bcomment"
  | DK_FloatNoExp => b "lex-float-no-exp"
  | DK_FloatLeadingZero => b "lex-float-leading-zero"
  | DK_Expected => b "parse-expected"
  | DK_IntTooBig => b "parse-int-too-big"
  | DK_RedundantParen => b "parse-redundant-paren"
  | DK_AttrPathExtraDot => b "parse-attrpath-extra-dot"
  | DK_SelectExtraDot => b "parse-select-extra-dot"
  | DK_UnexpectedBetween => b "parse-unexpected-between"
  | DK_UnexpectedText => b "parse-unexpected"
  | DK_MissingSepFormals => b "parse-missing-sep-formals"
  | DK_LambdaArgExtraAt => b "parse-lambda-arg-extra-at"
  | DK_OperatorNotAssociative => b "parse-operator-noassoc"
  | DK_KeywordOrIsNotBinaryOp => b "parse-kw-or-isnot-binary-op"
  | DK_LetDynamic => b "let-dynamic"
  | DK_EmptyInherit => b "empty-inherit"
  | DK_OrIdentifier => b "or-identifier"
  | DK_DeprecatedURL => b "deprecated-url-literal"
  | DK_DeprecatedLet => b "deprecated-let"
  | DK_LetAttrsMissingBody => b "deprecated-let-missing-body"
  | DK_PathTrailingSlash => b "path-trailing-slash"
  | DK_MergeDiffRec => b "merge-diff-rec"
  | DK_DuplicatedAttrName => b "sema-duplicated-attrname"
  | DK_DynamicInherit => b "sema-dynamic-inherit"
  | DK_EmptyFormal => b "sema-empty-formal"
  | DK_FormalMissingComma => b "sema-formal-missing-comma"
  | DK_FormalExtraEllipsis => b "sema-formal-extra-ellipsis"
  | DK_FormalMisplacedEllipsis => b "sema-misplaced-ellipsis"
  | DK_DuplicatedFormal => b "sema-dup-formal"
  | DK_DuplicatedFormalToArg => b "sema-dup-formal-arg"
  | DK_UndefinedVariable => b "sema-undefined-variable"
  | DK_UnusedDefLet => b "sema-unused-def-let"
  | DK_UnusedDefLambdaNoArg_Formal => b "sema-unused-def-lambda-noarg-formal"
  | DK_UnusedDefLambdaWithArg_Formal => b "sema-unused-def-lambda-witharg-formal"
  | DK_UnusedDefLambdaWithArg_Arg => b "sema-unused-def-lambda-witharg-arg"
  | DK_ExtraRecursive => b "sema-extra-rec"
  | DK_ExtraWith => b "sema-extra-with"
  | DK_PrimOpUnknown => b "sema-primop-unknown"
  | DK_PrimOpRemovablePrefix => b "sema-primop-removed-prefix"
  | DK_PrimOpNeedsPrefix => b "sema-primop-needs-prefix"
  | DK_PrimOpOverridden => b "sema-primop-overridden"
  | DK_ConstantOverridden => b "sema-constant-overridden"
  end.

(** all kinds, in declaration order (diagnostic.py) *)
Definition all_dkinds : list dkind :=
  [DK_UnterminatedBComment; DK_FloatNoExp; DK_FloatLeadingZero; DK_Expected; DK_IntTooBig; DK_RedundantParen; DK_AttrPathExtraDot; DK_SelectExtraDot; DK_UnexpectedBetween; DK_UnexpectedText; DK_MissingSepFormals; DK_LambdaArgExtraAt; DK_OperatorNotAssociative; DK_KeywordOrIsNotBinaryOp; DK_LetDynamic; DK_EmptyInherit; DK_OrIdentifier; DK_DeprecatedURL; DK_DeprecatedLet; DK_LetAttrsMissingBody; DK_PathTrailingSlash; DK_MergeDiffRec; DK_DuplicatedAttrName; DK_DynamicInherit; DK_EmptyFormal; DK_FormalMissingComma; DK_FormalExtraEllipsis; DK_FormalMisplacedEllipsis; DK_DuplicatedFormal; DK_DuplicatedFormalToArg; DK_UndefinedVariable; DK_UnusedDefLet; DK_UnusedDefLambdaNoArg_Formal; DK_UnusedDefLambdaWithArg_Formal; DK_UnusedDefLambdaWithArg_Arg; DK_ExtraRecursive; DK_ExtraWith; DK_PrimOpUnknown; DK_PrimOpRemovablePrefix; DK_PrimOpNeedsPrefix; DK_PrimOpOverridden; DK_ConstantOverridden].

(** NoteKinds.inc: message *)
Definition nmessage (k : nkind) : bytes :=
  match k with
  | NK_PrevDeclared => b "previously declared here"
  | NK_DuplicateFormal => b "duplicated to this formal"
  | NK_ThisRecursive => b "this attribute set is {}recursive"
  | NK_RecConsider => b "while this attribute set is marked as {}recursive, it will be considered as {}recursive"
  | NK_BCommentBegin => b "/* comment begins at here"
  | NK_ToMachThis => b "to match this {}"
  end.

(** NoteKinds.inc: sname *)
Definition nsname_of (k : nkind) : bytes :=
  match k with
  | NK_PrevDeclared => b "note-prev"
  | NK_DuplicateFormal => b "note-duplicate-formal"
  | NK_ThisRecursive => b "merge-diff-rec-this-rec"
  | NK_RecConsider => b "merge-diff-rec-consider"
  | NK_BCommentBegin => b "note-bcomment-begin"
  | NK_ToMachThis => b "to-match-this"
  end.

(** libnixf/src/Basic/Diagnostic.cpp:9-23 simpleFormat.  [Args[ArgIdx++]] past the end is undefined
    behaviour: [Crash]. *)
Fixpoint simpleFormat (fmt : bytes) (args : list bytes) : res bytes :=
  match fmt with
  | [] => Ok []
  | "{"%char :: "}"%char :: fmt' =>
      match args with
      | [] => Crash "simpleFormat: argument out of bounds"
      | a :: args' => let* r := simpleFormat fmt' args' in Ok (a ++ r)
      end
  | c :: fmt' => let* r := simpleFormat fmt' args in Ok (c :: r)
  end.

(** Diagnostic.cpp:51-53 PartialDiagnostic::format *)
Definition d_format (d : diag) : res bytes := simpleFormat (dmessage (d_kind d)) (d_args d).
Definition n_format (n : note) : res bytes := simpleFormat (nmessage (n_kind n)) (n_args n).
